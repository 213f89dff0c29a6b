(** The entry points against the page parser. *)
From Verif Require Import Base ModelSpan ModelComb ModelAst ModelTable ModelLink ModelInline ModelBlock ModelElem ModelCli ModelEntry SpecEntry
  SpecDoc SpecBlock SpecTree ProofBase ProofBytes ProofContract ProofPrim ProofInline ProofLink ProofText
  ProofBlock ProofFence ProofDefs ProofTable ProofList ProofPage ProofEnv.

Section First.
Context {EV : env}.
Local Notation inner := (e_inner EV).
Local Notation up := (e_uri EV).
Local Notation dp := (e_date EV).

Lemma steps_off s l s' x p : steps MQ s l s' -> flatten_opt l = x :: p -> sp_start s <= r_off (l_reg x).
Proof.
  intro H. induction H as [s|s s1 s2 a l Hs0 Ha Hlt HQ Hst IH]; intro E; [discriminate|].
  destruct HQ as (_ & L & K). destruct a as [y|]; cbn [flatten_opt flat_map app] in E.
  - injection E as -> _. destruct K as (sm & _ & _ & -> & _). cbn [reg r_off]. lia.
  - change (flatten_opt l = x :: p) in E. specialize (IH E). lia.
Qed.
Lemma first_block x p rest : e_bd EV (length inner) -> parse_page up dp inner = Ok rest (x :: p) -> r_off (l_reg x) = 0 ->
  exists s, top_level_block_element up dp (span_of inner) = Ok s x.
Proof.
  unfold parse_page, p_page, pmap, all_consuming. set (s := span_of inner). intros Hbd H Z.
  assert (Hs : sok s).
  { unfold s, span_of, sok. cbn. repeat split; auto. lia. apply e_bd_0. }
  assert (Hb : bole s) by (right; left; reflexivity).
  unfold many0 in H. set (n := remaining_len s) in H. cbn [many0_fuel] in H.
  pose proof (GP_maybe (S n) s Hs ltac:(unfold n; lia) Hb) as HM. unfold R in HM.
  destruct (maybe_block_element up dp s) as [s1 a| | |] eqn:E; cbv beta iota delta [ModelComb.bind] in H;
    [|destruct (remaining_len s =? 0); discriminate H|discriminate H..].
  destruct HM as [Ha HQ]. destruct (span_eqb s1 s) eqn:Es; [discriminate|].
  pose proof (span_eqb_start _ _ Hs Ha Es) as Hlt. pose proof (adv_rl_lt _ _ Hs Ha Hlt). pose proof (adv_sok _ _ Hs Ha) as Hs1.
  assert (HP : forall t t' a, sok t -> bole t -> adv t t' -> MQ t t' a -> bole t')
    by (intros t t' b _ _ _ (K & _); exact K).
  pose proof (GP_many0_fuel (S n) bole _ MQ n s1 (GP_maybe _) HP Hs1 ltac:(unfold n; lia) ltac:(unfold n; lia) ltac:(apply HQ)) as HR.
  unfold R in HR. destruct (many0_fuel n (maybe_block_element up dp) s1) as [s2 l| | |]; cbn [ModelComb.bind] in H; try discriminate.
  cbv beta iota delta [ModelComb.bind] in H. destruct (remaining_len s2 =? 0); [|discriminate H]. apply (f_equal (fun r => match r with Ok _ v => v | _ => [] end)) in H; cbn beta iota in H.
  destruct a as [y|]; cbn [flatten_opt flat_map app] in H.
  - injection H as -> _. unfold maybe_block_element, palt, value, pmap in E.
    destruct (blank_line s) as [t o| | |]; cbn [ModelComb.bind] in E; try discriminate.
    destruct (top_level_block_element up dp s) as [t o| | |] eqn:F; cbn [ModelComb.bind] in E; try discriminate. injection E as -> ->. eauto.
  - exfalso. destruct HR as (_ & K & _). pose proof (steps_off _ _ _ _ _ K H). lia.
Qed.
Lemma visible_no_blank b r : inner = b :: r -> is_space b = false -> b <> b_nl -> b <> b_cr -> e_bd EV (length inner) ->
  blank_line (span_of inner) = Err \/ blank_line (span_of inner) = Panic.
Proof.
  intros E N1 N2 N3 Hbd. set (s := span_of inner).
  assert (Hs : sok s).
  { unfold s, span_of, sok. cbn. repeat split; auto. lia. apply e_bd_0. }
  pose proof (G_blank_line (S (remaining_len s)) s Hs ltac:(lia)) as K. unfold R in K.
  destruct (blank_line s) as [s' o| | |]; auto; [|destruct K]. exfalso. destruct K as (Ha & _ & L & a & e & T & Ba & Ee & _).
  unfold txt in T. change (sp_start s) with 0 in *. unfold slice in T. cbn [skipn] in T. rewrite E in T.
  destruct (sp_start s' - 0) as [|k] eqn:Z; [lia|]. cbn [firstn] in T. destruct a as [|c a].
  - destruct Ee as [->|[->| ->]]; [discriminate|injection T as T _; congruence..].
  - injection T as <- _. inversion Ba; subst. congruence.
Qed.
Lemma block_first b r s x q rest : inner = b :: r -> is_space b = false -> b <> b_nl -> b <> b_cr -> e_bd EV (length inner) ->
  top_level_block_element up dp (span_of inner) = Ok s x -> parse_page up dp inner = Ok rest q -> exists p, q = x :: p.
Proof.
  intros E N1 N2 N3 Hbd HT. unfold parse_page, p_page, pmap, all_consuming, many0. cbn [many0_fuel].
  assert (M : maybe_block_element up dp (span_of inner) = Ok s (Some x) \/ maybe_block_element up dp (span_of inner) = Panic).
  { unfold maybe_block_element, palt, value, pmap. destruct (visible_no_blank b r E N1 N2 N3 Hbd) as [-> | ->].
    - rewrite HT. now left.
    - now right. }
  destruct M as [-> | ->]; [|discriminate]. destruct (span_eqb s _); [discriminate|]. cbv beta iota delta [ModelComb.bind].
  destruct (many0_fuel _ _ s) as [s2 l| | |]; try discriminate. destruct (remaining_len s2 =? 0); [|discriminate].
  intro H. apply (f_equal (fun r => match r with Ok _ v => v | _ => [] end)) in H; cbn beta iota in H. subst q.
  exists (flatten_opt l). reflexivity.
Qed.
End First.

Section Entries.
Variable up : str -> option uri.
Variable dp : str -> option date.

Lemma first_block_of text rest x p : parse_page up dp text = Ok rest (x :: p) -> r_off (l_reg x) = 0 ->
  exists s, top_level_block_element up dp (span_of text) = Ok s x.
Proof. apply (@first_block (page_env up dp text) x p rest). cbn. intro H. now apply boundary_end. Qed.

Lemma block_first_of text b r s x q rest : text = b :: r -> is_space b = false -> b <> b_nl -> b <> b_cr ->
  top_level_block_element up dp (span_of text) = Ok s x -> parse_page up dp text = Ok rest q -> exists p, q = x :: p.
Proof. intros E N1 N2 N3. apply (@block_first (page_env up dp text) b r s x q rest); auto. cbn. intro H. now apply boundary_end. Qed.

Lemma alt_in {A} (ps : list (parser A)) s s' a : alt ps s = Ok s' a -> exists p, In p ps /\ p s = Ok s' a.
Proof.
  induction ps as [|p ps IH]; cbn [alt]; [discriminate|]. unfold palt. destruct (p s) as [t v| | |] eqn:E; try discriminate.
  - intro H. injection H as <- <-. exists p. split; [now left|exact E].
  - intro H. destruct (IH H) as (q & I & K). exists q. split; [now right|exact K].
Qed.
Lemma pmap_of {A B} (p : parser A) (f : A -> B) s s' b : pmap p f s = Ok s' b -> exists a, p s = Ok s' a /\ f a = b.
Proof. unfold pmap. destruct (p s) as [t a| | |]; cbn [ModelComb.bind]; try discriminate. intro H. injection H as <- <-. eauto. Qed.
End Entries.

(** * Numbers on the command line *)

Lemma parse_digits_iff l : forall a n, (a < usize_bound)%N ->
  parse_digits a l = Some n <->
  Forall (fun b => is_digit b = true) l /\ fold_left (fun a b => (10 * a + N.of_nat (byte_n b - 48))%N) l a = n /\ (n < usize_bound)%N.
Proof.
  assert (Mono : forall l a, (a <= fold_left (fun a b => (10 * a + N.of_nat (byte_n b - 48))%N) l a)%N).
  { clear. induction l as [|b l IH]; intro a; cbn [fold_left]; [lia|]. specialize (IH (10 * a + N.of_nat (byte_n b - 48))%N). lia. }
  induction l as [|b l IH]; intros a n L; cbn [parse_digits fold_left].
  - split; [intro H; injection H as <-; auto|]. intros (_ & -> & _). reflexivity.
  - destruct (is_digit b) eqn:D.
    + cbv zeta. destruct (N.ltb_spec (10 * a + N.of_nat (byte_n b - 48)) usize_bound) as [K|K].
      * rewrite IH by exact K. split; intros (F & E & B); (split; [|auto]); [constructor; auto|now inversion F].
      * split; [discriminate|]. intros (_ & E & B). specialize (Mono l (10 * a + N.of_nat (byte_n b - 48))%N). lia.
    + split; [discriminate|]. intros (F & _). inversion F. congruence.
Qed.
Lemma parse_usize_iff s n : parse_usize s = Some n <-> written_number s n.
Proof.
  unfold parse_usize, written_number, digits_value. split.
  - assert (C : exists ds, (s = ds \/ s = bs "+" ++ ds) /\ match s with x2b :: l' => l' | _ => s end = ds).
    { destruct s as [|b s]; [exists []; auto|]. destruct b; eexists; (split; [|reflexivity]); auto. }
    destruct C as (ds & E & ->). intro H. exists ds. split; [exact E|]. destruct ds as [|d ds]; [discriminate|].
    split; [discriminate|]. apply (parse_digits_iff (d :: ds) 0 n) in H; [exact H|reflexivity].
  - intros (ds & E & NE & F & V & B). assert (C : match s with x2b :: l' => l' | _ => s end = ds).
    { destruct E as [-> | ->]; [|reflexivity]. destruct ds as [|d ds]; [contradiction|]. inversion F as [|? ? D _]; subst. destruct d; try reflexivity. discriminate D. }
    rewrite C. destruct ds as [|d ds]; [contradiction|]. apply (parse_digits_iff (d :: ds) 0 n); [reflexivity|]. auto.
Qed.
Lemma included_one f i name : included [f] i name = matches_either f i name.
Proof. unfold included. cbn [existsb]. apply orb_false_r. Qed.
