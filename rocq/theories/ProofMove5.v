(** A page from one of its blocks on, and a page after blank lines. *)
From Verif Require Import Base ModelAst ModelTable ModelLink ModelInline ModelBlock ModelSpan ModelComb
  SpecDoc SpecTree SpecSpan SpecEq SpecMove ProofBase ProofBytes ProofSpan ProofContract ProofPrim ProofInline ProofLink ProofText
  ProofBlock ProofFence ProofDefs ProofTable ProofList ProofPage ProofEnv ProofClaims ProofRound ProofRound4 ProofMove2 ProofMove3 ProofMove4.

Section Split.
Context {EV : env}.
Local Notation inner := (e_inner EV).
Local Notation up := (e_uri EV).
Local Notation dp := (e_date EV).

Lemma many0_split b p2 : forall f s s2 l p1, sok s -> bole s ->
  many0_fuel f (maybe_block_element up dp) s = Ok s2 l -> flatten_opt l = p1 ++ b :: p2 ->
  exists f' t l', many0_fuel f' (maybe_block_element up dp) t = Ok s2 l' /\ flatten_opt l' = b :: p2 /\
    sok t /\ bol inner (sp_start t) /\ sp_start t = r_off (l_reg b) /\ sp_end t = sp_end s /\ sp_depth t = sp_depth s.
Proof.
  induction f as [|f IH]; intros s s2 l p1 Hs Hb H F; [discriminate|].
  pose proof H as H0. cbn [many0_fuel] in H.
  pose proof (GP_maybe (S (remaining_len s)) s Hs ltac:(lia) Hb) as HM. unfold ProofContract.R in HM.
  destruct (maybe_block_element up dp s) as [s1 a| | |] eqn:E; try discriminate.
  2: { injection H as <- <-. destruct p1; discriminate F. }
  destruct (span_eqb s1 s) eqn:Es; [discriminate|]. destruct HM as [Ha HQ].
  destruct (many0_fuel f _ s1) as [s3 l1| | |] eqn:Em; cbv beta iota delta [ModelComb.bind] in H; try discriminate. injection H as -> <-.
  pose proof (adv_sok _ _ Hs Ha) as Hs1. destruct HQ as (Hb1 & L & K).
  assert (A : sp_end s1 = sp_end s /\ sp_depth s1 = sp_depth s) by (split; apply Ha).
  destruct a as [y|]; cbn [flatten_opt flat_map app] in F.
  - destruct p1 as [|x p1]; cbn [app] in F; injection F as -> F.
    + destruct K as (sm & _ & _ & Er & _ & B & _). exists (S f), s, (Some b :: l1). split; [exact H0|]. split; [cbn; now f_equal|].
      split; [exact Hs|]. split; [exact B|]. rewrite Er. auto.
    + destruct (IH s1 s2 l1 p1 Hs1 Hb1 Em F) as (f' & t & l' & T1 & T2 & T3 & T4 & T5 & T6 & T7).
      exists f', t, l'. rewrite T6, T7. destruct A as [-> ->]. auto 10.
  - destruct (IH s1 s2 l1 p1 Hs1 Hb1 Em F) as (f' & t & l' & T1 & T2 & T3 & T4 & T5 & T6 & T7).
    exists f', t, l'. rewrite T6, T7. destruct A as [-> ->]. auto 10.
Qed.
End Split.

Section Resume.
Variable up : str -> option uri.
Variable dp : str -> option date.
Local Notation maybe := (maybe_block_element up dp).

Lemma parse_of text : parse_page up dp text =
  match many0_fuel (S (remaining_len (span_of text))) maybe (span_of text) with
  | Ok s l => if remaining_len s =? 0 then Ok s (flatten_opt l) else Err
  | Err => Err | Panic => Panic | OutOfFuel => OutOfFuel
  end.
Proof.
  unfold parse_page, p_page, pmap, all_consuming, many0. destruct (many0_fuel _ _ _) as [s l| | |]; cbv beta iota delta [ModelComb.bind]; auto.
  destruct (remaining_len s =? 0); reflexivity.
Qed.
Lemma page_split text rest p1 b p2 : parse_page up dp text = Ok rest (p1 ++ b :: p2) ->
  exists f l, many0_fuel f maybe (Span text (r_off (l_reg b)) (length text) 0) = Ok rest l /\ flatten_opt l = b :: p2 /\
    remaining_len rest = 0 /\ bol text (r_off (l_reg b)) /\ r_off (l_reg b) <= length text.
Proof.
  rewrite parse_of. destruct (many0_fuel _ _ _) as [s l| | |] eqn:Em; try discriminate.
  destruct (Nat.eqb_spec (remaining_len s) 0) as [Z|]; [|discriminate]. intro H. injection H as <- H.
  pose (EV := page_env up dp text).
  assert (Hs : @sok EV (span_of text)).
  { unfold span_of, sok. cbn. split; [reflexivity|]. split; [lia|]. split; [lia|]. split; intro U; [now apply boundary_0|now apply boundary_end]. }
  assert (Hb : @bole EV (span_of text)) by (right; left; reflexivity).
  destruct (@many0_split EV b p2 _ _ _ _ _ Hs Hb Em H) as (f & t & l' & T1 & T2 & T3 & T4 & T5 & T6 & T7).
  cbn in T6, T7. destruct T3 as (I & L1 & L2 & _). change (e_inner EV) with text in *. change (e_uri EV) with up in T1. change (e_date EV) with dp in T1.
  exists f, l'. destruct t as [ti ts te td]. cbn [sp_inner sp_start sp_end sp_depth] in *. subst. auto 10.
Qed.

(** * The rest of a page *)

Lemma pre_of text o : bol text o -> o <= length text -> firstn o text = [] \/ exists x, firstn o text = x ++ [b_nl].
Proof.
  intros [-> |H] L; [now left|]. destruct o as [|o]; [now left|]. right. exists (firstn o text).
  replace (S o - 1) with o in H by lia. apply nth_error_split in H as (x & y & -> & <-).
  rewrite !firstn_app, Nat.sub_diag, firstn_all. replace (S (length x) - length x) with 1 by lia.
  rewrite firstn_all2 by lia. cbn. now rewrite app_nil_r.
Qed.
Lemma simp_maybe {E : move} : simp (opt_rel (RL Rb)) maybe maybe.
Proof.
  assert (V : simp (opt_rel (RL Rb)) (value None blank_line) (value None blank_line)).
  { eapply simp_pmap; [exact simp_blank|]. intros. exact I. }
  apply simp_palt; [exact V|]. eapply simp_pmap; [exact (simp_top up dp)|]. intros x x' Hx. exact Hx.
Qed.
Lemma sim_start {E : move} : sim (span_of suf) (Span (pre ++ suf) (length pre) (length (pre ++ suf)) 0).
Proof. unfold sim, span_of, pos. cbn. rewrite app_length. repeat split; auto; lia. Qed.
Lemma moved_of {E : move} l l' : Forall2 (opt_rel (RL Rb)) l l' ->
  moved_content (length pre) (flatten_opt l) = located_content_of (fun u => u) (flatten_opt l').
Proof. intro H. apply flat_rel in H. unfold moved_content, located_content_of, n_page. eapply F2_map; [exact H|]. intros. now apply RL_loc. Qed.

(** What the rest of the run says about the rest of the text alone. *)
Lemma tail_reads a t f : a = [] \/ (exists x, a = x ++ [b_nl]) ->
  match many0_fuel f maybe (Span (a ++ t) (length a) (length (a ++ t)) 0), parse_page up dp t with
  | OutOfFuel, _ => True
  | Ok s l, Ok _ q => moved_content (length a) q = located_content_of (fun u => u) (flatten_opt l) /\ remaining_len s = 0
  | Panic, Panic => True
  | _, _ => False
  end.
Proof.
  intro A. pose (E := {| pre := a; suf := t; pre_line := A |}).
  pose proof (@rel_many0 E _ _ _ _ (@simp_maybe E) (S (remaining_len (span_of t))) f _ _ (@sim_start E)) as R. cbn [pre suf E] in R.
  pose proof (claim_terminates up dp t) as T. pose proof (claim_not_err up dp t) as N. rewrite parse_of in *.
  destruct (many0_fuel (S (remaining_len (span_of t))) maybe (span_of t)) as [s l| | |]; [|tauto| |tauto].
  - destruct (Nat.eqb_spec (remaining_len s) 0) as [Z|]; [|tauto]. cbn [rel] in R.
    destruct (many0_fuel f _ _) as [s' l'| | |]; [|contradiction|contradiction|exact I]. destruct R as [Hs R].
    split; [exact (@moved_of E _ _ R)|]. now rewrite (@sim_len E _ _ Hs).
  - cbn [rel] in R. destruct (many0_fuel f _ _); tauto.
Qed.
Lemma resumes text rest p1 b p2 : parse_page up dp text = Ok rest (p1 ++ b :: p2) ->
  exists rest' q, parse_page up dp (skipn (r_off (l_reg b)) text) = Ok rest' q /\
    moved_content (r_off (l_reg b)) q = located_content_of (fun u => u) (b :: p2).
Proof.
  intro H. destruct (page_split _ _ _ _ _ H) as (f & l & M & F & Z & B & L). set (o := r_off (l_reg b)) in *.
  pose proof (tail_reads (firstn o text) (skipn o text) f (pre_of text o B L)) as K.
  rewrite firstn_skipn, firstn_length, Nat.min_l, M in K by exact L.
  destruct (parse_page up dp (skipn o text)) as [r q| | |]; try contradiction. exists r, q. split; [reflexivity|]. rewrite <- F. exact (proj1 K).
Qed.

(** * Blank lines *)

Lemma blank_runs s a e r : sees s (a ++ e ++ r) -> blanks a -> e = [b_nl] \/ e = [b_cr; b_nl] -> lstart s ->
  exists o, blank_line s = Ok (mv (length (a ++ e)) s) o.
Proof.
  intros H B C LS. unfold blank_line, preceded, terminated. rewrite (bol_run s (sees_ok _ _ H) LS). cbn [bind].
  assert (NB : nonblank_head (e ++ r)) by (destruct C as [-> | ->]; intros c t X; injection X as <- _; reflexivity).
  pose proof (sees_mv _ _ _ H) as Hm.
  assert (LE : exists o, line_ending (mv (length a) s) = Ok (mv (length (a ++ e)) s) o).
  { rewrite app_length, <- mv_mv. unfold line_ending, palt. destruct C as [-> | ->].
    - rewrite (tag_run nl_str _ r Hm). eauto.
    - rewrite tag_err by (destruct Hm as [_ ->]; reflexivity). rewrite (tag_run crlf_str _ r Hm). eauto. }
  destruct LE as [o LE]. unfold palt. destruct a as [|c a].
  - rewrite space1_err by (destruct H as [_ ->]; exact NB). cbn [bind]. rewrite (space0_run s [] _ H B NB). cbn [bind]. rewrite LE. cbn [bind]. eauto.
  - rewrite (space1_run s (c :: a) _ H B ltac:(discriminate) NB). cbn [bind]. unfold end_of_line_or_input.
    assert (SE : sp_is_empty (mv (length (c :: a)) s) = false).
    { unfold sp_is_empty. rewrite (sees_len _ _ Hm). destruct C as [-> | ->]; reflexivity. }
    rewrite SE, LE. cbn [bind]. eauto.
Qed.
Lemma blank_pre g : blank_lines g -> g = [] \/ exists x, g = x ++ [b_nl].
Proof.
  intro H. induction H as [|a e g B C H IH]; [now left|]. right. destruct IH as [-> |[x ->]].
  - rewrite app_nil_r. destruct C as [-> | ->]; [now exists a|]. exists (a ++ [b_cr]). now rewrite <- app_assoc.
  - exists (a ++ e ++ x). now rewrite <- !app_assoc.
Qed.
Lemma bol_here x t : x = [] \/ (exists y, x = y ++ [b_nl]) -> bol (x ++ t) (length x).
Proof.
  intros [-> |[y ->]]; [now left|]. right. rewrite app_length. cbn [length]. replace (length y + 1 - 1) with (length y) by lia.
  rewrite <- app_assoc, nth_error_app2, Nat.sub_diag by lia. reflexivity.
Qed.
Lemma blanks_many g t : blank_lines g -> forall x f, x = [] \/ (exists y, x = y ++ [b_nl]) ->
  exists f', match many0_fuel f maybe (Span (x ++ g ++ t) (length x) (length (x ++ g ++ t)) 0),
                   many0_fuel f' maybe (Span (x ++ g ++ t) (length (x ++ g)) (length (x ++ g ++ t)) 0) with
             | OutOfFuel, _ => True
             | Ok s l, Ok s' l' => s = s' /\ flatten_opt l = flatten_opt l'
             | Err, Err | Panic, Panic => True
             | _, _ => False
             end.
Proof.
  intro H. induction H as [|a e g B C H IH]; intros x f X.
  - exists f. rewrite app_nil_r. destruct (many0_fuel f _ _); auto.
  - destruct f as [|f]; [exists 0; exact I|]. set (s := Span (x ++ (a ++ e ++ g) ++ t) (length x) _ 0).
    assert (Hs : sees s (a ++ e ++ g ++ t)).
    { unfold sees, s. split; [split; cbn; rewrite ?app_length; lia|]. unfold remaining, slice. cbn [sp_inner sp_start sp_end].
      rewrite skipn_app, skipn_all, Nat.sub_diag. cbn [skipn app]. rewrite firstn_all2 by (rewrite !app_length; lia). now rewrite <- !app_assoc. }
    destruct (blank_runs s a e (g ++ t) Hs B C (bol_here x _ X)) as [o BL].
    destruct (IH (x ++ a ++ e) f) as [f' K].
    { right. destruct C as [-> | ->]; [exists (x ++ a)|exists (x ++ a ++ [b_cr])]; now rewrite <- !app_assoc. }
    exists f'. cbn [many0_fuel]. unfold maybe_block_element at 1, palt, value, pmap. rewrite BL. cbn [ModelComb.bind].
    assert (NE : span_eqb (mv (length (a ++ e)) s) s = false).
    { unfold span_eqb, s, mv. cbn [sp_inner sp_start sp_end sp_depth].
      assert (Z : length x + length (a ++ e) =? length x = false) by (apply Nat.eqb_neq; rewrite app_length; destruct C as [-> | ->]; cbn; lia).
      rewrite Z. now rewrite ?andb_false_r, ?andb_false_l. }
    assert (Q : x ++ (a ++ e ++ g) ++ t = (x ++ a ++ e) ++ g ++ t) by (now rewrite <- !app_assoc).
    assert (Q2 : length (x ++ a ++ e ++ g) = length ((x ++ a ++ e) ++ g)) by (now rewrite <- !app_assoc).
    assert (Q3 : mv (length (a ++ e)) s = Span ((x ++ a ++ e) ++ g ++ t) (length (x ++ a ++ e)) (length ((x ++ a ++ e) ++ g ++ t)) 0).
    { unfold mv, s. cbn [sp_inner sp_start sp_end sp_depth]. rewrite Q. f_equal. now rewrite !app_length. }
    rewrite NE, Q3, Q2, Q. destruct (many0_fuel f _ _), (many0_fuel f' _ _); cbn [ModelComb.bind]; try tauto.
Qed.
Lemma after_blanks g t : blank_lines g ->
  match parse_page up dp t, parse_page up dp (g ++ t) with
  | Ok _ p, Ok _ q => moved_content (length g) p = located_content_of (fun u => u) q
  | Panic, Panic => True
  | _, _ => False
  end.
Proof.
  intro H. destruct (blanks_many g t H [] (S (remaining_len (span_of (g ++ t)))) (or_introl eq_refl)) as [f K]. cbn [app length] in K.
  pose proof (tail_reads g t f (blank_pre g H)) as TR.
  pose proof (claim_terminates up dp (g ++ t)) as T. pose proof (claim_not_err up dp (g ++ t)) as N.
  rewrite (parse_of (g ++ t)) in *. change (span_of (g ++ t)) with (Span (g ++ t) 0 (length (g ++ t)) 0) in *.
  destruct (many0_fuel (S _) _ _) as [s l| | |]; [|tauto| |tauto].
  - destruct (many0_fuel f _ _) as [s' l'| | |]; try contradiction. destruct K as [-> K].
    destruct (parse_page up dp t) as [r q| | |]; try contradiction. destruct TR as [TR ->]. cbn [Nat.eqb]. now rewrite K.
  - destruct (many0_fuel f _ _) as [s' l'| | |]; try contradiction. destruct (parse_page up dp t); tauto.
Qed.
End Resume.
