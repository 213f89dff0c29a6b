(** The block parsers on a text with and without a newline at its end. *)
From Verif Require Import Base ModelAst ModelTable ModelLink ModelInline ModelBlock ModelSpan ModelComb
  SpecDoc SpecTree SpecSpan SpecEq ProofBase ProofBytes ProofSpan ProofPrim ProofClaims ProofLines1 ProofEnd2 ProofEnd3.

Section End.
Context {E : tailed}.
Notation simL := (sim false).
Notation len := (length bod).
Variable up : str -> option uri.
Variable dp : str -> option date.

Ltac cl := split; vm_compute; intuition discriminate.
Ltac nn := discriminate.
Ltac step L := eapply rel_bind; [apply (simp_at _ _ _ _ _ _ L); eassumption|]; intros.
Ltac fin := apply rel_ok; [eassumption|].
Notation NC := (n_cont (fun u => u) nowhere).
Notation NTD := (n_td nowhere NC).
Notation NB := (n_block (fun u => u) nowhere NC).
Notation NITEM := (n_item (fun u => u) nowhere NC).
Notation inner := (container_inner up dp).

(** * Parsers on a line *)

Lemma lineE s s' n : simL s s' -> n <= remaining_len s -> simL (advance_end_by n s) (advance_end_by n s').
Proof. intros Hs L. eapply sim_end; [exact Hs|]. now rewrite <- remaining_len_eq by apply (sim_ok _ _ _ Hs). Qed.
Lemma lineS s s' n : simL s s' -> n <= remaining_len s -> simL (advance_start_by n s) (advance_start_by n s').
Proof. intros Hs L. eapply sim_adv; [exact Hs|]. now rewrite <- remaining_len_eq by apply (sim_ok _ _ _ Hs). Qed.
Notation relL := (rel false).
Lemma relL_bind k {A B} (R : A -> A -> Prop) (Q : B -> B -> Prop) r r' f f' :
  relL R r r' -> (forall s s' a a', simL s s' -> R a a' -> rel k Q (f s a) (f' s' a')) -> rel k Q (bind r f) (bind r' f').
Proof. apply rel_bind. Qed.
Lemma relL_bindL {A B} (R : A -> A -> Prop) (Q : B -> B -> Prop) r r' f f' :
  relL R r r' -> (forall s s' a a', simL s s' -> R a a' -> relL Q (f s a) (f' s' a')) -> relL Q (bind r f) (bind r' f').
Proof. apply rel_bind. Qed.
Lemma line_trim_trailing s s' : simL s s' -> relL any (trim_trailing_whitespace s) (trim_trailing_whitespace s').
Proof.
  intro Hs. unfold trim_trailing_whitespace, rest_len, count_trailing_whitespace. cbn [bind].
  rewrite (simL_rem _ _ Hs), (simL_len _ _ Hs). split; [|exact I]. apply lineE; auto. lia.
Qed.
Lemma line_space0 s s' : simL s s' -> relL any (space0 s) (space0 s').
Proof.
  intro Hs. unfold space0, take_while0, ok_split. rewrite (simL_rem _ _ Hs). split; [|exact I]. apply lineS; auto.
  destruct (sim_ok _ _ _ Hs) as [O _]. rewrite remaining_len_eq by auto. apply count_while_le.
Qed.
Lemma line_trim s s' : simL s s' -> relL any (trim_whitespace s) (trim_whitespace s').
Proof.
  intro Hs. unfold trim_whitespace. eapply relL_bindL; [now apply line_space0|]. intros.
  eapply relL_bindL; [now apply line_trim_trailing|]. intros. split; [assumption|exact I].
Qed.
Lemma line_take_end n s s' : simL s s' -> relL simL (take_end n s) (take_end n s').
Proof.
  intro Hs. unfold take_end. cbv zeta. rewrite (simL_len _ _ Hs). destruct (_ <? n); [exact I|]. split; [apply lineE|apply lineS]; auto; lia.
Qed.
Lemma line_take n s s' : simL s s' -> relL simL (take n s) (take n s').
Proof.
  intro Hs. unfold take. rewrite (simL_len _ _ Hs). destruct (n <=? _) eqn:C; [|exact I]. apply Nat.leb_le in C.
  split; [apply lineS|apply lineE]; auto.
Qed.
Lemma line_verify {A} (R : A -> A -> Prop) p (f : A -> bool) s s' : relL R (p s) (p s') -> (forall a a', R a a' -> f a' = f a) ->
  relL R (verify p f s) (verify p f s').
Proof. intros H W. eapply relL_bindL; [exact H|]. intros t t' a a' Ht Ha. rewrite (W _ _ Ha). destruct (f a); simpl; auto. Qed.
Lemma line_peek {A} (R : A -> A -> Prop) p s s' : simL s s' -> relL R (p s) (p s') -> relL R (@peek A p s) (peek p s').
Proof. intros Hs H. eapply relL_bindL; [exact H|]. intros. split; auto. Qed.
Lemma oow_same o o' : simL o o' -> is_only_whitespace o' = is_only_whitespace o.
Proof. intro H. unfold is_only_whitespace. now rewrite (simL_rem _ _ H), (simL_len _ _ H). Qed.

Lemma simp_lined2 {A} (R : A -> A -> Prop) (f f' : span -> unit -> res A) :
  (forall u, stuck (fun s => f s u)) -> (forall u, stuck (fun s => f' s u)) ->
  (forall k s s' u u', sim k s s' -> remaining s <> [] -> rel k R (f s u) (f' s' u')) ->
  simp R (fun s => bind (beginning_of_line s) f) (fun s => bind (beginning_of_line s) f').
Proof. intros Z Z'. apply simp_lined; [intros s u N; apply (Z u s N)|intros s u N; apply (Z' u s N)]. Qed.
Lemma nil_end s : remaining_len (advance_end_by 0 s) = 0.
Proof. unfold remaining_len, advance_end_by. cbn [sp_start sp_end]. destruct (_ <=? _); lia. Qed.
Lemma stuck_space_v f : (forall o, remaining_len o = 0 -> f o = false) -> stuck (verify space0 f).
Proof.
  intros F s N. unfold verify, space0, take_while0. rewrite N. unfold ok_split. cbn [bind count_while].
  rewrite (F _ (nil_end s)). now left.
Qed.
Lemma stuck_indent i : stuck (verify (indentation_level false) (fun l => i <? l)).
Proof.
  intros s N. unfold verify, indentation_level, pmap, peek, space0, take_while0. rewrite N. unfold ok_split. cbn [bind count_while].
  rewrite nil_end. now left.
Qed.
Lemma stuck_space1 : stuck space1.
Proof. apply stuck_while1. Qed.
Hint Resolve stuck_space1 stuck_indent stuck_inner stuck_container : stuck.
Ltac lined := apply simp_lined2; [intro; cbv beta; stk|intro; cbv beta; stk|]; intros k s s' u u' H H0.

(** * Headers, dividers, placeholders *)

Definition Rh (h h' : header) : Prop := n_header (fun u => u) nowhere h = n_header (fun u => u) nowhere h'.
Lemma simp_header_tail n : simp Rc (header_tail up dp n) (header_tail up dp n).
Proof.
  intros k s s' Hs. unfold header_tail. step simp_to_eol.
  eapply relL_bind; [apply line_trim_trailing; eassumption|]. intros.
  eapply relL_bind; [eapply line_verify; [apply line_take_end; eassumption|]|].
  { intros x x' Hx. now rewrite (simL_rem _ _ Hx). }
  intros. eapply relL_bind; [eapply line_peek; [eassumption|]; eapply line_verify; [apply line_take; eassumption|]|].
  { intros x x' Hx. now rewrite (simL_rem _ _ Hx). }
  intros. eapply relL_bind; [eapply line_peek; [eassumption|]; eapply line_verify; [apply line_take_end; eassumption|]|].
  { intros x x' Hx. now rewrite (simL_rem _ _ Hx). }
  intros. eapply relL_bind; [apply line_trim; eassumption|]. intros.
  eapply rel_bind; [apply (simp_inner up dp); eassumption|]. intros. now apply rel_ok.
Qed.
Lemma simp_header : simp (RL Rh) (p_header up dp) (p_header up dp).
Proof.
  apply simp_located; [stk|stk|]. lined.
  step (simp_pmap simL eq _ _ non_empty non_empty simp_space0 ltac:(intros x x' Hx; symmetry; now apply ne_same)).
  assert (LV : simp eq (verify (pmap (take_line_while1 (pchar x3d)) remaining_len) (fun l => (min_level <=? l) && (l <=? max_level)))
                       (verify (pmap (take_line_while1 (pchar x3d)) remaining_len) (fun l => (min_level <=? l) && (l <=? max_level)))).
  { apply simp_verify; [|congruence]. eapply simp_pmap; [apply simp_tlw1; nn|]. intros x x' Hx. symmetry. now apply simL_len. }
  step LV. subst. eapply rel_bind.
  - refine (simp_pmap Rc Rh _ _ _ _ (simp_header_tail _) _ _ _ _ H3). intros c c' Hc. unfold Rh, n_header. simpl. f_equal. exact Hc.
  - intros. step simp_eoi. now apply rel_ok.
Qed.
Lemma simp_divider : simp (RL eq) p_divider p_divider.
Proof.
  apply simp_located; [stk|stk|]. lined.
  step (simp_verify simL _ _ (fun sp => 4 <=? remaining_len sp) (fun sp => 4 <=? remaining_len sp) (simp_tlw1 x2d ltac:(nn) ltac:(nn))
    ltac:(intros x x' Hx; cbv beta; now rewrite (simL_len _ _ Hx))).
  step simp_eoi. fin. reflexivity.
Qed.
Lemma simp_ph_text : simp eq placeholder_text placeholder_text.
Proof. apply simp_cow. apply simp_verify; [exact simp_to_eol|]. intros x x' Hx. now rewrite (oow_same _ _ Hx). Qed.
Lemma stuck_ph_alt : stuck (alt [placeholder_title; placeholder_nohtml; placeholder_template; placeholder_date dp; placeholder_other]).
Proof. unfold placeholder_title, placeholder_nohtml, placeholder_template, placeholder_date, placeholder_other. stk. Qed.
Hint Resolve stuck_ph_alt : stuck.
Lemma simp_placeholder : simp (RL eq) (p_placeholder dp) (p_placeholder dp).
Proof.
  unfold p_placeholder. apply simp_lined2; [intro; apply stuck_bind, stuck_located, stuck_ph_alt|intro; apply stuck_bind, stuck_located, stuck_ph_alt|]. intros k s s' u u' H H0. eapply rel_bind with (R := RL eq).
  - refine (simp_located eq _ _ stuck_ph_alt stuck_ph_alt _ _ _ _ H). apply simp_alt. repeat constructor; intros k2 t t' Ht.
    + unfold placeholder_title. step (simp_tag (bs "%title") ltac:(cl)). step simp_space1. step simp_ph_text. fin. congruence.
    + unfold placeholder_nohtml. step (simp_tag (bs "%nohtml") ltac:(cl)). step simp_space0. fin. reflexivity.
    + unfold placeholder_template. step (simp_tag (bs "%template") ltac:(cl)). step simp_space1. step simp_ph_text. fin. congruence.
    + unfold placeholder_date. step (simp_tag (bs "%date") ltac:(cl)). step simp_space1. eapply rel_bind with (R := eq).
      * refine (simp_map_opt _ eq _ _ _ _ simp_to_eol _ _ _ _ H3). intros x x' Hx. rewrite (simL_rem _ _ Hx). apply opt_refl.
      * intros. fin. congruence.
    + unfold placeholder_other. step (simp_pnot _ _ _ (simp_tag (bs "%title") ltac:(cl))).
      step (simp_pnot _ _ _ (simp_tag (bs "%nohtml") ltac:(cl))). step (simp_pnot _ _ _ (simp_tag (bs "%template") ltac:(cl))).
      step (simp_pnot _ _ _ (simp_tag (bs "%date") ltac:(cl))). step (simp_tag (bs "%") ltac:(cl)).
      step (simp_cow _ (simp_tlu1_ _ (simp_tlu3 (bs " ") [b_tab] (bs "%") ltac:(cl) ltac:(nn) ltac:(cl) ltac:(nn) ltac:(cl) ltac:(nn)))).
      step simp_space1. step simp_ph_text. fin. congruence.
  - intros. step simp_eoi. now apply rel_ok.
Qed.

Lemma stuck_header : stuck (p_header up dp).
Proof. unfold p_header. stk. Qed.
Lemma stuck_divider : stuck p_divider.
Proof. unfold p_divider. stk. Qed.
Lemma stuck_placeholder : stuck (p_placeholder dp).
Proof. unfold p_placeholder. apply stuck_keep; [apply keep_bol|]. intro. apply stuck_bind, stuck_located, stuck_ph_alt. Qed.
Hint Resolve stuck_header stuck_divider stuck_placeholder : stuck.

(** * Blockquotes *)

Lemma simp_indented : simp (RL eq) indented_blockquote indented_blockquote.
Proof.
  assert (X : stuck indented_blockquote_line).
  { unfold indented_blockquote_line. apply stuck_bind, stuck_space_v. now intros o ->. }
  apply simp_located; [now apply stuck_many1|now apply stuck_many1|].
  eapply simp_weaken; [apply simp_many1 with (R := eq); [exact X|]|exact F2_eq]. intros k s s' Hs. unfold indented_blockquote_line.
  step (simp_verify simL _ _ (fun sp => 4 <=? remaining_len sp) (fun sp => 4 <=? remaining_len sp) simp_space0 ltac:(intros x x' Hx; cbv beta; now rewrite (simL_len _ _ Hx))).
  step (simp_cow _ (simp_verify simL _ _ (fun sp => negb (is_only_whitespace sp)) (fun sp => negb (is_only_whitespace sp)) simp_not_line_ending
     ltac:(intros x x' Hx; cbv beta; now rewrite (oow_same _ _ Hx)))).
  step simp_eoi. fin. congruence.
Qed.
Lemma simp_arrow_line : simp eq arrow_blockquote_line arrow_blockquote_line.
Proof.
  intros k s s' Hs. unfold arrow_blockquote_line. step simp_space0. step (simp_tag (bs "> ") ltac:(cl)).
  step (simp_cow _ simp_not_line_ending). step simp_eoi. fin. congruence.
Qed.
Lemma stuck_arrow_line : stuck arrow_blockquote_line.
Proof. unfold arrow_blockquote_line. stk. Qed.
Hint Resolve stuck_arrow_line : stuck.
Lemma stuck_arrow : stuck arrow_blockquote.
Proof. unfold arrow_blockquote. stk. Qed.
Lemma simp_arrow : simp (RL eq) arrow_blockquote arrow_blockquote.
Proof.
  apply simp_located; [stk|stk|]. eapply simp_pmap.
  - eapply simp_pair; [exact (simp_many1 _ _ _ stuck_arrow_line simp_arrow_line)|]. eapply simp_pmap with (Q := eq).
    + apply simp_many0; [stk|]. eapply simp_pair; [apply simp_many0; [stk|]; exact (simp_value _ _ _ _ simp_blank)|exact simp_arrow_line].
    + intros l l' H. induction H as [|[a b] [a' b'] l l' [H1 H2] H IH]; [reflexivity|]. simpl in *. apply F2_eq in H1. now rewrite IH, H1, H2.
  - intros [a b] [a' b'] [H1 H2]. simpl in *. apply F2_eq in H1. congruence.
Qed.
Lemma stuck_blockquote : stuck p_blockquote.
Proof.
  apply stuck_palt; [|apply stuck_arrow]. apply stuck_located, stuck_many1. unfold indented_blockquote_line. apply stuck_bind, stuck_space_v. now intros o ->.
Qed.
Hint Resolve stuck_arrow stuck_blockquote : stuck.
Lemma simp_blockquote : simp (RL eq) p_blockquote p_blockquote.
Proof. apply simp_palt; [exact simp_indented|exact simp_arrow]. Qed.

(** * Math and code *)

Lemma simp_count_space : simp eq (map_parser space0 count_remaining_bytes) (map_parser space0 count_remaining_bytes).
Proof. apply simp_map_parser; [exact simp_space0|exact simpL_count]. Qed.
Lemma simp_math_end : simp eq end_of_math_block end_of_math_block.
Proof.
  intros k s s' Hs. unfold end_of_math_block. step simp_count_space. step (simp_tag (bs "}}$") ltac:(cl)). step simp_space0. step simp_eoi. fin. congruence.
Qed.
Lemma stuck_math_end : stuck end_of_math_block.
Proof. unfold end_of_math_block. stk. Qed.

(** The lines of a block and the fence that ends it. *)
Notation lines_of e := (preceded (pnot e) (map_parser any_line cow_str)).
Lemma bind_bind {A B C} (r : res A) (f : span -> A -> res B) (h : span -> B -> res C) :
  bind (bind r f) h = bind r (fun s a => bind (f s a) h).
Proof. now destruct r. Qed.
Lemma fence_stuck {B} (e : parser nat) (F : list str -> span -> nat -> res B) f s : stuck e -> remaining s = [] -> span_ok s ->
  stuckr (bind (many0_fuel f (lines_of e) s) (fun s2 l => bind (e s2) (F l))).
Proof.
  intros W N O. destruct f as [|f]; [now right|]. cbn [many0_fuel].
  assert (Q : advance_start_by (remaining_len s) s = s).
  { rewrite (remaining_len_eq s O), N. destruct O as [L _]. cbn [length]. unfold advance_start_by. rewrite Nat.add_0_r.
    replace (sp_end s <? sp_start s) with false by (symmetry; apply Nat.ltb_ge; lia). now destruct s. }
  assert (X : (exists a, lines_of e s = Ok s a) \/ stuckr (lines_of e s)).
  { unfold preceded, pnot. destruct (W s N) as [->| ->]; cbn [bind]; [|right; now right].
    unfold map_parser, any_line, rest_of_line, cow_str. unfold beginning_of_line. destruct (rev (consumed s)) as [|b r].
    2: destruct (is_nl b); [|right; now left].
    all: cbn [bind]; unfold take_until_end_of_line_or_input; rewrite N; cbn [find_pos]; unfold rest; cbn [bind]; rewrite ?Q;
      pose proof (stuck_line_ending s N) as Y;
      unfold end_of_line_or_input; destruct (sp_is_empty s); cbn [bind]; [left; eauto|];
      destruct Y as [->| ->]; cbn [bind]; right; [now left|now right]. }
  destruct X as [[a ->]|[->| ->]]; [| |now right].
  - replace (span_eqb s s) with true; [now left|]. symmetry. unfold span_eqb. rewrite !Nat.eqb_refl. cbn [andb]. now apply str_eqb_eq.
  - cbn [bind]. destruct (W s N) as [->| ->]; [now left|now right].
Qed.
Lemma rel_fence {B} (Q : B -> B -> Prop) (e : parser nat) : stuck e -> simp eq e e ->
  forall f f' k s s' (F F' : list str -> span -> nat -> res B), sim k s s' ->
  (forall l t t' n, sim k t t' -> rel k Q (F l t n) (F' l t' n)) ->
  rel k Q (bind (many0_fuel f (lines_of e) s) (fun s2 l => bind (e s2) (F l))) (bind (many0_fuel f' (lines_of e) s') (fun s2 l => bind (e s2) (F' l))).
Proof.
  intros W He. induction f as [|f IH]; intros f' k s s' F F' Hs HF; [exact I|]. destruct f' as [|f'].
  { now destruct (bind (many0_fuel (S f) _ s) _). }
  pose proof (He _ _ _ Hs) as H. destruct (remaining s) as [|b r] eqn:N.
  - destruct (sim_ok _ _ _ Hs) as [O1 O2]. pose proof (fence_stuck e F (S f) s W N O1) as P.
    destruct (sim_nil _ _ _ Hs N) as [O|[R|(K & C & S1 & R)]].
    + apply stuck_relr; [exact P|]. apply fence_stuck; [exact W|apply (over_nil _ _ O)|exact O2].
    + apply stuck_relr; [exact P|]. now apply fence_stuck.
    + destruct (W s N) as [X|X]; [|cbn [many0_fuel]; unfold preceded at 1, pnot at 1; rewrite X; exact I].
      apply stuck_relr; [exact P|]. rewrite X in H. cbn [many0_fuel]. unfold preceded at 1, pnot at 1.
      destruct (e s') eqn:Y; simpl in H; try contradiction; cbn [bind]; [|now right].
      unfold map_parser, any_line. rewrite (bol_end' s') by (try apply Hs; lia). cbn [bind]. rewrite Y. now left.
  - assert (HP : rel k eq (lines_of e s) (lines_of e s')).
    { unfold preceded, pnot. destruct (e s), (e s'); simpl in H; try contradiction; cbn [bind]; try exact I.
      2: { destruct (map_parser any_line cow_str s); exact I. }
      unfold map_parser. eapply rel_bind; [apply rel_any_line; [exact Hs|congruence]|]. intros t t' o o' Ht Ho. unfold cow_str. cbn [bind].
      apply rel_ok; [exact Ht|]. symmetry. now apply simL_rem. }
    cbn [many0_fuel]. destruct (lines_of e s) as [t a| | |], (lines_of e s') as [t' a'| | |]; simpl in HP; try contradiction; try exact I.
    + destruct HP as [Ht <-]. rewrite (sim_eqb _ _ _ _ _ Hs Ht) by congruence. destruct (span_eqb t s); [exact I|]. rewrite !bind_bind. cbn [bind].
      apply (IH f' k t t' (fun l => F (a :: l)) (fun l => F' (a :: l)) Ht). intros. now apply HF.
    + destruct (span_eqb t s); [exact I|]. now destruct (bind (bind _ _) _).
    + cbn [bind]. eapply rel_bind; [exact H|]. intros u u' n n' Hu <-. now apply HF.
    + cbn [bind]. now destruct (bind (e s) (F [])).
Qed.

(** The line that opens a math block has to end. *)
Definition relx k {A} (R : A -> A -> Prop) (r r' : res A) : Prop :=
  rel k R r r' \/ (stuckr r /\ match r' with Ok t _ => remaining t = [] /\ span_ok t | Panic => False | _ => True end).
Lemma relx_bind k j {A B} (R : A -> A -> Prop) (Q : B -> B -> Prop) r r' f f' :
  rel j R r r' -> (forall s s' a a', sim j s s' -> R a a' -> relx k Q (f s a) (f' s' a')) -> relx k Q (bind r f) (bind r' f').
Proof.
  intros H W. destruct r as [s a| | |], r' as [s' a'| | |]; simpl in H; try contradiction; cbn [bind]; try (left; exact I).
  - destruct H. now apply W.
  - left. now destruct (f s a).
Qed.
Lemma math_begin k s s' : sim k s s' -> relx k eq (beginning_of_math_block s) (beginning_of_math_block s').
Proof.
  intro Hs. unfold beginning_of_math_block.
  eapply relx_bind; [apply (simp_at _ _ _ _ _ _ simp_count_space); exact Hs|]. intros s1 s1' a a' H1 <-.
  eapply relx_bind; [apply (simp_at _ _ _ _ _ _ (simp_tag (bs "{{$") ltac:(cl))); exact H1|]. intros s2 s2' o o' H2 _.
  eapply relx_bind with (R := eq).
  { eapply rel_weaken; [|exact (@opt_eq str)]. refine (simp_opt eq _ _ _ _ _ _ H2). apply simp_cow.
    eapply simp_delimited; [apply simp_pchar; nn| |apply simp_pchar; nn]. apply simp_tlu1; [cl|nn|vm_compute; lia]. }
  intros s3 s3' env env' H3 <-. eapply relx_bind; [apply (simp_at _ _ _ _ _ _ simp_space0); exact H3|]. intros s4 s4' o4 o4' H4 _.
  destruct (remaining s4) as [|b r] eqn:N.
  - destruct (stuck_line_ending s4 N) as [X|X]; rewrite X; [|left; exact I]. right. split; [now left|].
    destruct (sim_nil _ _ _ H4 N) as [O|[R|(K & C & S1 & R)]].
    + destruct (stuck_line_ending s4' (proj2 (over_nil _ _ O))) as [->| ->]; exact I.
    + destruct (stuck_line_ending s4' R) as [->| ->]; exact I.
    + unfold line_ending, palt, tag. rewrite R. unfold nl_str. cbn [starts_with andb]. rewrite beqb_refl. cbn [andb bind ok_split].
      destruct (sim_ok _ _ _ H4) as [_ [O1 O2]]. pose proof (remaining_len_eq s4' (conj O1 O2)) as Q. rewrite R in Q. cbn [length] in Q.
      unfold remaining_len in Q. destruct (Nat.leb_spec (sp_start s4') (sp_end s4')); [|lia].
      unfold advance_start_by, remaining, slice. cbn [sp_start sp_end sp_inner length].
      destruct (Nat.ltb_spec (sp_end s4') (sp_start s4' + 1)); [lia|]. split; [|split; cbn [sp_start sp_end sp_inner]; lia]. replace (sp_end s4' - (sp_start s4' + 1)) with 0 by lia. reflexivity.
  - left. eapply rel_bind; [apply rel_line_ending; [exact H4|left; congruence]|]. intros. apply rel_ok; auto.
Qed.
Lemma stuck_math_block : stuck p_math_block.
Proof. unfold p_math_block, beginning_of_math_block. apply stuck_located, stuck_bind. stk. Qed.
Lemma simp_math_block : simp (RL eq) p_math_block p_math_block.
Proof.
  assert (X : stuck beginning_of_math_block) by (unfold beginning_of_math_block; stk).
  apply simp_located; [now apply stuck_bind|now apply stuck_bind|]. intros k s s' Hs. destruct (math_begin k s s' Hs) as [H|[H H']].
  - eapply rel_bind; [exact H|]. intros t t' b b' Ht <-. apply (rel_fence eq _ stuck_math_end simp_math_end); [exact Ht|].
    intros l u u' n Hu. destruct (dedent _ _); [now apply rel_ok|exact I].
  - apply stuck_relr; [destruct H as [->| ->]; [now left|now right]|].
    destruct (beginning_of_math_block s') as [t b| | |]; [|now left|contradiction|now right]. destruct H' as [N L]. cbn [bind].
    unfold many0. apply (fence_stuck end_of_math_block (fun l s3 e => match dedent (Nat.min (fst b) e) l with Some ls => Ok s3 (MathBlock ls (snd b)) | None => Panic end));
      [exact stuck_math_end|exact N|exact L].
Qed.
Lemma simp_code_end : simp eq code_block_end code_block_end.
Proof.
  intros k s s' Hs. unfold code_block_end. step simp_count_space. step (simp_tag (bs "}}}") ltac:(cl)). step simp_space0. step simp_eoi. fin. congruence.
Qed.
Lemma simp_code_start : simp eq code_block_start code_block_start.
Proof.
  intros k t t' Ht. unfold code_block_start. step simp_count_space. step (simp_tag (bs "{{{") ltac:(cl)). eapply rel_bind with (R := eq).
  - eapply rel_weaken; [|exact (@opt_eq str)]. refine (simp_opt eq _ _ _ _ _ _ H1). apply simp_cow.
    apply simp_verify; [apply simp_tlu1; [cl|nn|vm_compute; lia]|]. intros x x' Hx. now rewrite (simL_rem _ _ Hx).
  - intros. step simp_space0. eapply rel_bind with (R := eq).
    + eapply rel_weaken; [|exact (@F2_pair str str)]. refine (simp_sep0 (pair_rel eq eq) simL _ _ _ _ stuck_space1 simp_space1 _ _ _ _ H5).
      eapply simp_separated_pair; [apply simp_cow, simp_tlu1; [cl|nn|vm_compute; lia]|apply (simp_pchar x3d); nn|].
      eapply simp_delimited; [apply simp_pchar; nn| |apply simp_pchar; nn]. apply simp_cow, simp_tlu; [cl|nn|vm_compute; lia].
    + intros. step simp_space0. step simp_eoi. fin. congruence.
Qed.
Lemma stuck_code_end : stuck code_block_end.
Proof. unfold code_block_end. stk. Qed.
Lemma stuck_code_start : stuck code_block_start.
Proof. unfold code_block_start. stk. Qed.
Lemma stuck_code_block : stuck p_code_block.
Proof. apply stuck_located, stuck_bind, stuck_code_start. Qed.
Lemma simp_code_block : simp (RL eq) p_code_block p_code_block.
Proof.
  apply simp_located; [apply stuck_bind, stuck_code_start|apply stuck_bind, stuck_code_start|]. intros k s s' Hs. step simp_code_start. subst a'.
  apply (rel_fence eq _ stuck_code_end simp_code_end); [assumption|]. intros l u u' n Hu. destruct (dedent _ _); [now apply rel_ok|exact I].
Qed.
Hint Resolve stuck_code_block stuck_math_block : stuck.

(** * Definition lists *)

Lemma simp_term_line : simp (pair_rel (RL Rc) (opt_rel (RL Rc))) (term_line up dp) (term_line up dp).
Proof.
  intros k s s' Hs. unfold term_line. step simp_space0. eapply rel_bind with (R := RL Rc).
  - refine (simp_located Rc _ _ _ _ _ _ _ _ H); [stk|stk|]. eapply simp_terminated; [|apply simp_tag; cl].
    apply simp_map_parser; [|apply simp_L, simp_inner]. apply simp_verify; [apply simp_tlu1; [cl|nn|vm_compute; lia]|].
    intros x x' Hx. do 2 f_equal. unfold trim_start. rewrite (simL_rem _ _ Hx). apply simL_rem, lineS; auto.
    destruct (sim_ok _ _ _ Hx) as [O _]. rewrite remaining_len_eq by auto. apply count_while_le.
  - intros. eapply rel_bind with (R := opt_rel (RL Rc)).
    + refine (simp_opt (RL Rc) _ _ _ _ _ _ H1). apply simp_located; [stk|stk|]. eapply simp_preceded; [exact simp_space1|].
      apply simp_map_parser; [exact simp_to_eol|apply simp_L, simp_inner].
    + intros. step (simp_pair _ _ _ _ _ _ simp_space0 simp_eoi). fin. split; assumption.
Qed.
Lemma simp_definition_line : simp (RL Rc) (definition_line up dp) (definition_line up dp).
Proof.
  apply simp_located; [stk|stk|]. intros k s s' Hs. step simp_space0. step (simp_tag (bs "::") ltac:(cl)). step simp_space1.
  eapply rel_bind with (R := Rc).
  - refine (simp_map_parser Rc _ _ _ _ simp_to_eol _ _ _ _ H3). apply simp_L, simp_inner.
  - intros. step simp_eoi. now apply rel_ok.
Qed.
Lemma stuck_term_line : stuck (term_line up dp).
Proof. unfold term_line. stk. Qed.
Lemma stuck_definition_line : stuck (definition_line up dp).
Proof. unfold definition_line. stk. Qed.
Lemma stuck_term_defs : stuck (term_and_definitions up dp).
Proof. unfold term_and_definitions. apply stuck_bind, stuck_term_line. Qed.
Lemma stuck_definition_list : stuck (p_definition_list up dp).
Proof. apply stuck_located, stuck_pmap, stuck_many1, stuck_deeper, stuck_term_defs. Qed.
Hint Resolve stuck_definition_list : stuck.
Lemma simp_term_defs : simp (pair_rel (RL Rc) (RL (Forall2 (RL Rc)))) (term_and_definitions up dp) (term_and_definitions up dp).
Proof.
  intros k s s' Hs. unfold term_and_definitions. step simp_term_line. destruct a as [t d], a' as [t' d'], H0 as [H1 H2]. cbn [fst snd] in *.
  eapply rel_bind with (R := RL (Forall2 (RL Rc))).
  - refine (simp_located_ (Forall2 (RL Rc)) _ _ (idle_verify _ _ (idle_many0 _ stuck_definition_line)) (idle_verify _ _ (idle_many0 _ stuck_definition_line)) _ _ _ _ H).
    apply simp_verify; [apply simp_many0; [apply stuck_definition_line|apply simp_definition_line]|].
    intros l l' Hl. destruct d, d'; simpl in H2; try contradiction; destruct Hl; reflexivity.
  - intros v v' b b' Hv (B1 & B2). fin. destruct d as [d|], d' as [d'|]; simpl in H2; try contradiction.
    + split; [exact H1|]. split; [simpl; constructor; assumption|assumption].
    + split; [exact H1|]. split; assumption.
Qed.
Definition Rdl (d d' : def_list) : Prop := map (n_loc nowhere NTD) d = map (n_loc nowhere NTD) d'.
Lemma F2_locs {A} (R : A -> A -> Prop) (f f' : A -> A) l l' : Forall2 (RL R) l l' -> (forall a a', R a a' -> f a = f' a') ->
  map (n_loc nowhere f) l = map (n_loc nowhere f') l'.
Proof. intros H W. eapply F2_map; [exact H|]. intros a a' (Ha & _). unfold n_loc. f_equal. now apply W. Qed.
Lemma simp_definition_list : simp (RL Rdl) (p_definition_list up dp) (p_definition_list up dp).
Proof.
  assert (X : stuck (deeper (term_and_definitions up dp))) by (apply stuck_deeper, stuck_term_defs).
  apply simp_located; [now apply stuck_pmap, stuck_many1|now apply stuck_pmap, stuck_many1|]. eapply simp_pmap; [apply simp_many1; [exact X|]; apply simp_deeper, simp_term_defs|].
  intros l l' H. unfold Rdl. rewrite !map_map. eapply F2_map; [exact H|]. intros [t d] [t' d'] [(H1 & _) (H2 & _)]. cbn [fst snd] in *.
  unfold def_item, n_loc. cbn [fst snd l_val l_reg]. f_equal. unfold n_td. cbn [td_term td_defs]. f_equal.
  - unfold n_loc. f_equal. exact H1.
  - unfold n_loc at 1 3. f_equal. eapply F2_locs; [exact H2|]. auto.
Qed.

(** * Tables *)

Definition Rcell (c c' : cell) : Prop := n_cell (fun u => u) nowhere c = n_cell (fun u => u) nowhere c'.
Definition gl (fr : region -> region) (x : located cell) := n_loc fr (n_cell (fun u => u) fr) x.
Definition g (fr : region -> region) (kv : cellpos * located cell) := (fst kv, gl fr (snd kv)).
Definition Rt (t t' : table) : Prop :=
  map (g nowhere) (t_cells t) = map (g nowhere) (t_cells t') /\ t_row_cnt t = t_row_cnt t' /\ t_col_cnt t = t_col_cnt t' /\ t_centered t = t_centered t'.
Lemma g_insert fr kk v m : map (g fr) (cells_insert kk v m) = cells_insert kk (gl fr v) (map (g fr) m).
Proof.
  induction m as [|[k' v'] m IH]; [reflexivity|]. cbn [cells_insert map]. unfold g at 2. cbn [fst snd].
  destruct (cellpos_eqb kk k'); [reflexivity|]. cbn [map]. now rewrite IH.
Qed.
Lemma g_collect fr l : map (g fr) (cells_collect l) = cells_collect (map (g fr) l).
Proof.
  unfold cells_collect. change (@nil (cellpos * located cell)) with (map (g fr) []) at 2. generalize (@nil (cellpos * located cell)).
  induction l as [|[a b] l IH]; intro m; [reflexivity|]. cbn [fold_left map]. rewrite IH, g_insert. reflexivity.
Qed.
Lemma g_fold fr (f : cellpos -> nat) m a :
  fold_left (fun x kv => Nat.max x (f (fst kv) + 1)) (map (g fr) m) a = fold_left (fun x (kv : cellpos * located cell) => Nat.max x (f (fst kv) + 1)) m a.
Proof. revert a. induction m as [|[kk v] m IH]; intro a; [reflexivity|]. cbn [fold_left map g fst]. apply IH. Qed.
Lemma table_new_rel l l' c : map (g nowhere) l = map (g nowhere) l' -> Rt (table_new l c) (table_new l' c).
Proof.
  intro H. assert (C : map (g nowhere) (cells_collect l) = map (g nowhere) (cells_collect l')) by (now rewrite !g_collect, H).
  unfold table_new. cbv zeta. split; [exact C|]. cbn [t_row_cnt t_col_cnt t_centered].
  split; [|split; [|reflexivity]].
  - rewrite <- (g_fold nowhere cp_row (cells_collect l)), <- (g_fold nowhere cp_row (cells_collect l')). now rewrite C.
  - rewrite <- (g_fold nowhere cp_col (cells_collect l)), <- (g_fold nowhere cp_col (cells_collect l')). now rewrite C.
Qed.
Lemma g_row r cs cs' : Forall2 (RL Rcell) cs cs' -> map (g nowhere) (enum_row r cs) = map (g nowhere) (enum_row r cs').
Proof.
  intro H. unfold enum_row. generalize 0. induction H as [|x x' cs cs' (Hx & _) H IH]; intro n; [reflexivity|]. cbn [length seq combine map].
  f_equal; [|apply IH]. unfold g, gl, n_loc. cbn [fst snd]. do 2 f_equal. exact Hx.
Qed.
Lemma g_rows rs rs' : Forall2 (Forall2 (RL Rcell)) rs rs' -> map (g nowhere) (enum_rows rs) = map (g nowhere) (enum_rows rs').
Proof.
  intro H. unfold enum_rows. generalize 0. induction H as [|x x' rs rs' Hx H IH]; intro n; [reflexivity|]. cbn [length seq combine flat_map].
  rewrite !map_app. f_equal; [|apply IH]. cbn [fst snd]. now apply g_row.
Qed.
Lemma g_get fr kk m : cells_get kk (map (g fr) m) = option_map (gl fr) (cells_get kk m).
Proof. induction m as [|[k' v] m IH]; [reflexivity|]. cbn [cells_get map g fst snd]. destruct (cellpos_eqb kk k'); [reflexivity|apply IH]. Qed.
Lemma g_divider t t' r : Rt t t' -> is_divider_row t' r = is_divider_row t r.
Proof.
  intros (H & _). assert (Q : forall fr x, is_divider_row x r = match cells_get (CellPos r 0) (map (g fr) (t_cells x)) with Some c => is_align (l_val c) | None => false end).
  { intros fr x. unfold is_divider_row, get_cell. rewrite g_get. destruct (cells_get (CellPos r 0) (t_cells x)) as [c|]; [|reflexivity].
    simpl. destruct (l_val c); reflexivity. }
  now rewrite (Q nowhere t), (Q nowhere t'), H.
Qed.
Lemma simp_align : simp eq column_align column_align.
Proof.
  intros k s s' Hs. unfold column_align. step (simp_opt eq _ _ (simp_pchar x3a ltac:(nn) ltac:(nn))). step (simp_tlw1 x2d ltac:(nn) ltac:(nn)).
  step (simp_opt eq _ _ (simp_pchar x3a ltac:(nn) ltac:(nn))). fin. apply opt_eq in H0, H4. now subst.
Qed.
Lemma simp_cell : simp (RL Rcell) (p_cell up dp) (p_cell up dp).
Proof.
  apply simp_located; [unfold column_align, cell_span_above, cell_span_left; stk|unfold column_align, cell_span_above, cell_span_left; stk|]; apply simp_alt. repeat constructor.
  - eapply simp_pmap; [eapply simp_value, simp_delimited; [exact simp_space0|apply simp_tag; cl|exact simp_space0]|]. intros; subst; reflexivity.
  - eapply simp_pmap; [eapply simp_value, simp_delimited; [exact simp_space0|apply simp_tag; cl|exact simp_space0]|]. intros; subst; reflexivity.
  - eapply simp_pmap; [exact simp_align|]. intros; subst; reflexivity.
  - eapply simp_pmap; [apply simp_map_parser; [apply simp_tlu1; [cl|nn|vm_compute; lia]|apply simp_L, (simp_inner up dp)]|].
    intros a a' H. unfold Rcell. simpl. f_equal. exact H.
Qed.
Lemma simp_row : simp (Forall2 (RL Rcell)) (p_row up dp) (p_row up dp).
Proof.
  eapply simp_terminated; [|exact simp_eoi]. eapply simp_delimited; [apply simp_pchar; nn| |apply simp_pchar; nn].
  eapply simp_sep1; [apply stuck_pchar|apply simp_pchar; nn|apply simp_deeper, simp_cell].
Qed.
Lemma stuck_row : stuck (p_row up dp).
Proof. unfold p_row. stk. Qed.
Hint Resolve stuck_row : stuck.
Lemma stuck_table : stuck (p_table up dp).
Proof. unfold p_table. stk. Qed.
Lemma stuck_nested_table : stuck (p_nested_table up dp).
Proof. apply stuck_pmap, stuck_table. Qed.
Hint Resolve stuck_table stuck_nested_table : stuck.
Lemma simp_table : simp (RL Rt) (p_table up dp) (p_table up dp).
Proof.
  apply simp_located; [stk|stk|]; apply simp_verify.
  - intros k s s' Hs. step (simp_pair _ _ _ _ _ _ simp_space0 simp_row). step (simp_many0 _ (preceded space0 (p_row up dp)) _ ltac:(stk) (simp_preceded _ _ _ _ _ _ simp_space0 simp_row)).
    fin. destruct a as [x y], a' as [x' y'], H0 as [Hx Hy]. cbn [fst snd] in *. rewrite (ne_same _ _ Hx). apply table_new_rel, g_rows. now constructor.
  - intros t t' H. f_equal. assert (rows t' = rows t) as -> by (unfold rows; destruct H as (_ & -> & _); reflexivity).
    induction (rows t) as [|r l IH]; [reflexivity|]. cbn [forallb]. rewrite IH. f_equal. now apply g_divider.
Qed.
Lemma simp_nested_table : simp (RL Rt) (p_nested_table up dp) (p_nested_table up dp).
Proof. eapply simp_lmap; [exact simp_table|]. intros t t' (H1 & H2 & H3 & H4). repeat split; auto. Qed.
Lemma Rt_table t t' : Rt t t' -> n_table (fun u => u) nowhere t = n_table (fun u => u) nowhere t'.
Proof. intros (H1 & H2 & H3 & H4). unfold n_table. unfold g, gl in H1. now rewrite H1, H2, H3, H4. Qed.

(** * Lists *)

Definition Rb (b b' : block) : Prop := NB b = NB b'.
Definition Rli (i i' : list_item) : Prop := NITEM i = NITEM i'.
Lemma simp_indent b : simp eq (indentation_level b) (indentation_level b).
Proof.
  destruct b; eapply simp_pmap; [exact simp_space0| |apply simp_peek; exact simp_space0|]; intros x x' Hx; symmetry; now apply simL_len.
Qed.
Lemma simp_indent_v f : simp eq (verify (indentation_level false) f) (verify (indentation_level false) f).
Proof. apply simp_verify; [apply simp_indent|congruence]. Qed.
Lemma simp_todo : simp eq p_todo_status p_todo_status.
Proof.
  intros k s s' Hs. unfold p_todo_status. step (simp_tag (bs "[") ltac:(cl)). eapply rel_bind with (R := eq).
  - refine (simp_alt eq _ _ _ _ _ _ H). repeat constructor; eapply simp_value, simp_tag; cl.
  - intros. step (simp_tag (bs "] ") ltac:(cl)). fin. congruence.
Qed.
Lemma simp_prefix : simp eq list_item_prefix list_item_prefix.
Proof.
  apply simp_palt.
  - eapply simp_pmap; [apply simp_palt; eapply simp_value, simp_tag; cl|]. congruence.
  - eapply simp_pmap with (R := pair_rel eq eq).
    + apply simp_palt; apply simp_pair.
      * apply simp_alt. repeat constructor; eapply simp_value; try (apply simp_take_while1; reflexivity); (apply simp_many1; [apply stuck_one_of|apply simp_one_of; cl]).
      * apply simp_palt; eapply simp_value, simp_tag; cl.
      * eapply simp_value, simp_tag; cl.
      * eapply simp_value, simp_tag; cl.
    + intros [x y] [x' y'] [H1 H2]. simpl in *. congruence.
Qed.
Lemma stuck_prefix : stuck list_item_prefix.
Proof. unfold list_item_prefix, unordered_list_item_prefix, ordered_list_item_prefix, digit1. stk. Qed.
Lemma simp_item_tail n n' i : simp (RL Rb) n n' ->
  simp (pair_rel eq (Forall2 (RL Rb))) (list_item_tail_ n i) (list_item_tail_ n' i).
Proof.
  intros N k s s' Hs. unfold list_item_tail_. step (simp_opt eq _ _ simp_todo). step (simp_deeper _ _ _ N).
  step (simp_many0 _ (preceded (verify (indentation_level false) (fun l => i <? l)) (deeper n)) _ ltac:(stk) (simp_preceded _ _ _ _ _ _ (simp_indent_v (fun l => i <? l)) (simp_deeper _ _ _ N))).
  fin. apply opt_eq in H0. split; [assumption|]. simpl. now constructor.
Qed.
Notation item_rest n a s2 := (
    bind (recognize (pair rest_of_line (many0 (preceded (verify (indentation_level false) (fun l => a <? l)) rest_of_line))) s2) (fun _ rem =>
    bind (located_p (pmap (pair list_item_prefix (list_item_tail_ n a))
          (fun p => ListItem (fst (fst p)) (snd (fst p)) 0 (snd (snd p)) (fst (snd p)))) rem) (fun rem1 item =>
    if sp_start rem1 <? sp_start s2 then Panic
    else Ok (advance_start_by (sp_start rem1 - sp_start s2) s2) (a, item)))).
Lemma item_stuck n a t : remaining t = [] -> sp_start t <= sp_end t -> stuckr (item_rest n a t).
Proof.
  intros N2 L.
  set (t1 := advance_start_by (remaining_len t) t). assert (N1 : remaining t1 = []) by now apply adv_nil.
  assert (S1 : sp_start t1 = sp_end t).
  { unfold t1, advance_start_by, remaining_len. cbn [sp_start]. destruct (Nat.leb_spec (sp_start t) (sp_end t)); [|lia].
    destruct (Nat.ltb_spec (sp_end t) (sp_start t + (sp_end t - sp_start t))); lia. }
  set (P := preceded (verify (indentation_level false) (fun l => a <? l)) rest_of_line).
  assert (X : stuckr (recognize (pair rest_of_line (many0 P)) t) \/ exists t2, recognize (pair rest_of_line (many0 P)) t = Ok t2 (advance_end_by (sp_end t - sp_start t) t)).
  { unfold recognize, pair at 1 2, rest_of_line at 1 2, take_until_end_of_line_or_input. rewrite N2. cbn [find_pos]. unfold rest. cbn [bind]. fold t1.
    unfold end_of_line_or_input. pose proof (stuck_line_ending t1 N1) as Y. destruct (sp_is_empty t1); cbn [bind].
    2: { left. destruct Y as [->| ->]; [now left|now right]. }
    unfold many0. cbn [many0_fuel]. destruct (stuck_preceded _ rest_of_line (stuck_indent a) t1 N1) as [Z|Z]; fold P in Z; rewrite Z; cbn [bind]; [|left; now right].
    right. exists t1. rewrite S1. replace (sp_end t <? sp_start t) with false by (symmetry; apply Nat.ltb_ge; lia). reflexivity. }
  destruct X as [[X|X]|[t2 X]]; rewrite X; cbn [bind]; [now left|now right|].
  assert (N3 : remaining (advance_end_by (sp_end t - sp_start t) t) = []).
  { revert N2. unfold remaining, advance_end_by. cbn [sp_start sp_end sp_inner]. now replace (sp_start t + (sp_end t - sp_start t)) with (sp_end t) by lia. }
  match goal with |- stuckr (bind (?p _) _) => assert (W : stuck p) by apply stuck_located, stuck_pmap, stuck_pair, stuck_prefix end.
  destruct (W _ N3) as [->| ->]; [now left|now right].
Qed.
Lemma stuck_item n : stuck (list_item_ n).
Proof.
  unfold list_item_. apply stuck_keep; [apply keep_bol|]. intro u. intros s N.
  unfold indentation_level at 1, pmap at 1, space0, take_while0. rewrite N. unfold ok_split. cbn [bind count_while]. apply item_stuck.
  - now apply adv_nil.
  - unfold advance_start_by. cbn [sp_start sp_end]. destruct (Nat.ltb_spec (sp_end s) (sp_start s + 0)); lia.
Qed.
Lemma sim_to k j s s' v v' : sim k s s' -> sp_start s' = sp_start s -> sim j v v' ->
  (sp_start v' <? sp_start s') = (sp_start v <? sp_start s) /\
  (sp_start s <= sp_start v -> sim k (advance_start_by (sp_start v - sp_start s) s) (advance_start_by (sp_start v' - sp_start s') s')).
Proof.
  intros Hs C Hv. destruct Hs as (E1 & E2 & H1 & H2 & D & HC).
  destruct HC as [(A1 & A2 & A3 & _)|[_ HC]]; [lia|]. destruct Hv as (_ & _ & G1 & G2 & _ & HV). rewrite C.
  assert (V : sp_start v' = sp_start v \/ (sp_start v = len /\ sp_start v' = S len)) by (destruct HV as [(B1 & B2 & B3 & B4)|[B _]]; auto).
  split.
  - destruct V as [->|[-> ->]]; [reflexivity|]. destruct (Nat.ltb_spec (S len) (sp_start s)), (Nat.ltb_spec len (sp_start s)); lia.
  - intro K. unfold sim, over, advance_start_by. cbn [sp_inner sp_start sp_end sp_depth]. rewrite C.
    replace (sp_start s + (sp_start v - sp_start s)) with (sp_start v) by lia.
    replace (sp_start s + (sp_start v' - sp_start s)) with (sp_start v') by lia.
    destruct (Nat.ltb_spec (sp_end s) (sp_start v)), (Nat.ltb_spec (sp_end s') (sp_start v')); destruct k; repeat split; auto; lia.
Qed.
Lemma recognize_at {A} (R : A -> A -> Prop) (p p' : parser A) k s s' : sim k s s' -> sp_start s' = sp_start s -> rel k R (p s) (p' s') ->
  rel k (fun o o' => exists j, sim j o o') (recognize p s) (recognize p' s').
Proof.
  intros Hs C H. eapply rel_bind; [exact H|]. intros t t' a a' Ht Ha.
  destruct Hs as (E1 & E2 & H1 & H2 & D & _). pose proof Ht as (F1 & F2 & G1 & G2 & D2 & [(A1 & A2 & A3 & A4)|[A1 A2]]).
  - rewrite C, A1, A3. replace (len <? sp_start s) with false by (symmetry; apply Nat.ltb_ge; lia).
    replace (S len <? sp_start s) with false by (symmetry; apply Nat.ltb_ge; lia). apply rel_ok; [exact Ht|]. exists true.
    unfold advance_end_by. repeat split; cbn [sp_start sp_end sp_inner sp_depth]; auto; try lia.
  - rewrite C, A1. destruct (Nat.ltb_spec (sp_start t) (sp_start s)); [exact I|]. apply rel_ok; [exact Ht|]. exists false.
    unfold advance_end_by. repeat split; cbn [sp_start sp_end sp_inner sp_depth]; auto; try lia.
Qed.
Lemma simp_item_ n n' : simp (RL Rb) n n' -> simp (pair_rel eq (RL Rli)) (list_item_ n) (list_item_ n').
Proof.
  intros N k s s' Hs. destruct (remaining s) as [|c q] eqn:NS.
  { pose proof (stuck_item n s NS) as P. destruct (sim_nil _ _ _ Hs NS) as [O|[R|(K & C & S1 & R)]].
    - apply stuck_relr; [exact P|]. apply stuck_item, (over_nil _ _ O).
    - apply stuck_relr; [exact P|]. now apply stuck_item.
    - apply stuck_relr; [exact P|]. unfold list_item_. rewrite (bol_end' s') by (try apply Hs; lia). now left. }
  unfold list_item_. eapply rel_bind; [apply rel_bol; [exact Hs|congruence]|]. intros s1 s1' u u' H _.
  eapply rel_bind; [apply (simp_indent true); exact H|]. intros s2 s2' a a' H0 <-.
  destruct (sim_ok _ _ _ H0) as [[O1 _] [O2 _]].
  assert (C : sp_start s2' = sp_start s2 \/ (remaining s2 = [] /\ remaining s2' = [])).
  { destruct (remaining s2) as [|c2 q2] eqn:N2; [|left; apply (sim_here _ _ _ H0); congruence].
    destruct (sim_nil _ _ _ H0 N2) as [O|[R|(K & C & _)]]; auto. right. split; [reflexivity|apply (over_nil _ _ O)]. }
  destruct C as [C|[C1 C2]]; [|apply stuck_relr; now apply item_stuck].
  eapply rel_bind.
  { eapply recognize_at; [exact H0|exact C|].
    refine (simp_pair _ _ _ _ _ _ simp_rest_of_line (simp_many0 _ (preceded (verify (indentation_level false) (fun l => a <? l)) rest_of_line) _ _ (simp_preceded _ _ _ _ _ _ (simp_indent_v (fun l => a <? l)) simp_rest_of_line)) _ _ _ H0).
    stk. }
  intros s3 s3' rem rem' H3 [j Hr]. eapply rel_bind with (R := RL Rli).
  - refine (simp_located Rli _ _ _ _ _ _ _ _ Hr); [apply stuck_pmap, stuck_pair, stuck_prefix|apply stuck_pmap, stuck_pair, stuck_prefix|]. eapply simp_pmap.
    + eapply simp_pair; [exact simp_prefix|apply simp_item_tail; exact N].
    + intros [x [y z]] [x' [y' z']] [H5 [H6 H7]]. cbn [fst snd] in *. subst. unfold Rli. cbn [n_item]. f_equal. eapply F2_locs; [exact H7|]. auto.
  - intros v v' x x' Hv Hx. destruct (sim_to _ _ _ _ _ _ H0 C Hv) as [-> Z].
    destruct (Nat.ltb_spec (sp_start v) (sp_start s2)); [exact I|]. apply rel_ok; [now apply Z|split; auto].
Qed.
Definition Rlist (l l' : list (located list_item)) : Prop := map (n_loc nowhere NITEM) l = map (n_loc nowhere NITEM) l'.
Lemma with_pos_rel p i i' : Rli i i' -> Rli (li_with_pos p i) (li_with_pos p i').
Proof. destruct i, i'. unfold Rli. cbn [n_item li_with_pos li_with_ty li_ty]. intro H. injection H. intros. congruence. Qed.
Lemma with_ty_rel p i i' : Rli i i' -> Rli (li_with_ty p i) (li_with_ty p i').
Proof. destruct i, i'. unfold Rli. cbn [n_item li_with_pos li_with_ty li_ty]. intro H. injection H. intros. congruence. Qed.
Lemma ty_rel i i' : Rli i i' -> li_ty i = li_ty i'.
Proof. destruct i, i'. unfold Rli. cbn [n_item li_with_pos li_with_ty li_ty]. intro H. injection H. auto. Qed.
Lemma assign_rel l l' : Forall2 (RL Rli) l l' -> forall n, Forall2 (RL Rli) (assign_pos n l) (assign_pos n l').
Proof.
  induction 1 as [|x x' l l' Hx H IH]; intro n; [constructor|]. cbn [assign_pos]. constructor; [|apply IH].
  eapply RL_lmap; [exact Hx|]. intros. now apply with_pos_rel.
Qed.
Lemma normalize_rel l l' : Forall2 (RL Rli) l l' -> Rlist (normalize_list l) (normalize_list l').
Proof.
  intro H. apply (F2_locs Rli); [|auto]. destruct H as [|x x' l l' Hx H]; [constructor|]. cbn [normalize_list]. constructor; [exact Hx|].
  rewrite (ty_rel _ _ (proj1 Hx)). induction H as [|y y' l l' Hy H IH]; [constructor|]. cbn [map]. constructor; [|exact IH].
  eapply RL_lmap; [exact Hy|]. intros. now apply with_ty_rel.
Qed.
Lemma simp_list_ n n' : simp (RL Rb) n n' -> simp (RL Rlist) (list_ n) (list_ n').
Proof.
  intro N. assert (X : forall n, stuck (deeper (list_item_ n))) by (intro; apply stuck_deeper, stuck_item).
  apply simp_located; [apply stuck_bind, X|apply stuck_bind, X|]. intros k s s' Hs. step (simp_deeper _ _ _ (simp_item_ _ _ N)). destruct a as [i x], a' as [i' x'], H0 as [H1 H2]. cbn [fst snd] in *. subst i'.
  eapply rel_bind with (R := Forall2 (RL Rli)).
  - refine (simp_many0 _ _ _ _ _ _ _ _ H); [apply stuck_preceded2; [|apply stuck_pmap, X]; unfold indentation_level; kp|]. eapply simp_preceded; [apply simp_indent_v|].
    eapply simp_pmap; [apply simp_deeper, simp_item_; exact N|]. now intros ? ? [].
  - intros. fin. apply normalize_rel. constructor; [assumption|]. now apply assign_rel.
Qed.

Lemma stuck_list n : stuck (list_ n).
Proof. apply stuck_located, stuck_bind, stuck_deeper, stuck_item. Qed.
Hint Resolve stuck_list : stuck.

(** * Paragraphs and pages *)

Definition Rp (l l' : list container) : Prop := map NC l = map NC l'.
Lemma simp_continue n n' : simp (RL Rb) n n' -> simp any (continue_paragraph_ up dp n) (continue_paragraph_ up dp n').
Proof.
  intros N k s s' Hs. unfold continue_paragraph_. step (simp_pnot _ _ _ simp_header). step (simp_pnot _ _ _ simp_definition_list).
  step (simp_pnot _ _ _ (simp_list_ _ _ N)). step (simp_pnot _ _ _ simp_table). step (simp_pnot _ _ _ simp_code_block).
  step (simp_pnot _ _ _ simp_math_block). step (simp_pnot _ _ _ simp_blank). step (simp_pnot _ _ _ simp_arrow).
  step (simp_pnot _ _ _ simp_divider). step (simp_pnot _ _ _ simp_placeholder). fin. exact I.
Qed.
Lemma stuck_par n : stuck (delimited (continue_paragraph_ up dp n) (paragraph_line up dp) end_of_line_or_input).
Proof.
  unfold delimited. apply stuck_preceded2.
  - unfold continue_paragraph_. kp.
  - apply stuck_terminated. unfold paragraph_line. stk.
Qed.
Lemma stuck_paragraph n : stuck (paragraph_ up dp n).
Proof. apply stuck_located, stuck_many1, stuck_par. Qed.
Lemma simp_paragraph_ n n' : simp (RL Rb) n n' -> simp (RL Rp) (paragraph_ up dp n) (paragraph_ up dp n').
Proof.
  intro N. apply simp_located; [apply stuck_many1, stuck_par|apply stuck_many1, stuck_par|]. eapply simp_weaken with (R := Forall2 Rc).
  - apply simp_many1; [apply stuck_par|]. eapply simp_delimited; [apply simp_continue; exact N| |exact simp_eoi].
    intros k s s' Hs. unfold paragraph_line. step simp_space0. now apply simp_inner.
  - intros l l' H. eapply F2_map; [exact H|]. auto.
Qed.
Ltac blk L := eapply simp_lmap; [exact L|]; intros ? ? HH; try (subst; reflexivity); unfold Rb; cbn [n_block]; f_equal; try exact HH.
Lemma simp_nested f : forall f', simp (RL Rb) (nested_block_element up dp f) (nested_block_element up dp f').
Proof.
  induction f as [|f IH]; intros f' k s s' Hs; [exact I|]. destruct f' as [|f'].
  { cbn [nested_block_element]. destruct (alt _ s); exact I. }
  cbn [nested_block_element]. refine (simp_alt (RL Rb) _ _ _ _ _ _ Hs). repeat constructor.
  - blk simp_definition_list.
  - blk (simp_list_ _ _ (IH f')).
  - blk simp_nested_table. now apply Rt_table.
  - blk simp_code_block.
  - blk simp_math_block.
  - blk simp_arrow.
  - blk (simp_paragraph_ _ _ (IH f')).
Qed.
Lemma simp_p_list : simp (RL Rlist) (p_list up dp) (p_list up dp).
Proof. intros k s s' Hs. refine (simp_list_ _ _ _ _ _ _ Hs). apply simp_nested. Qed.
Lemma simp_p_paragraph : simp (RL Rp) (p_paragraph up dp) (p_paragraph up dp).
Proof. intros k s s' Hs. refine (simp_paragraph_ _ _ _ _ _ _ Hs). apply simp_nested. Qed.
Lemma simp_top : simp (RL Rb) (top_level_block_element up dp) (top_level_block_element up dp).
Proof.
  apply simp_alt. repeat constructor.
  - blk simp_header.
  - blk simp_definition_list.
  - blk simp_p_list.
  - blk simp_table. now apply Rt_table.
  - blk simp_code_block.
  - blk simp_math_block.
  - blk simp_blockquote.
  - blk simp_divider.
  - blk simp_placeholder.
  - blk simp_p_paragraph.
Qed.
Lemma flat_rel l l' : Forall2 (opt_rel (RL Rb)) l l' -> Forall2 (RL Rb) (flatten_opt l) (flatten_opt l').
Proof.
  induction 1 as [|x x' l l' Hx H IH]; [constructor|]. unfold flatten_opt in *. cbn [flat_map].
  destruct x, x'; simpl in Hx; try contradiction; [|exact IH]. constructor; assumption.
Qed.
Lemma stuck_top : stuck (top_level_block_element up dp).
Proof.
  apply stuck_alt. repeat (apply Forall_cons; [apply stuck_pmap|]); try apply Forall_nil;
    [apply stuck_header|apply stuck_definition_list| |apply stuck_table|apply stuck_code_block|apply stuck_math_block|apply stuck_blockquote|apply stuck_divider|apply stuck_placeholder|].
  - intros s N. now apply stuck_list.
  - intros s N. now apply stuck_paragraph.
Qed.
Lemma simp_maybe : simp (opt_rel (RL Rb)) (maybe_block_element up dp) (maybe_block_element up dp).
Proof.
  assert (V : simp (opt_rel (RL Rb)) (value None blank_line) (value None blank_line)).
  { eapply simp_pmap; [exact simp_blank|]. intros. exact I. }
  apply simp_palt; [exact V|]. eapply simp_pmap; [exact simp_top|]. intros x x' Hx. exact Hx.
Qed.
Lemma stuck_maybe : stuck (maybe_block_element up dp).
Proof. apply stuck_palt; [apply stuck_value, stuck_blank|apply stuck_pmap, stuck_top]. Qed.
End End.
