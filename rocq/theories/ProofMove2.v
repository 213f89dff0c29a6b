(** A run of a parser in the middle of a text beside its run on the rest of the
    text alone: spans, combinators, primitives. *)
From Verif Require Import Base ModelAst ModelTable ModelLink ModelInline ModelBlock ModelSpan ModelComb
  SpecDoc SpecTree SpecSpan SpecMove ProofBase ProofBytes ProofSpan ProofLines1.

(** What stands before ends a line. *)
Class move := { pre : str; suf : str; pre_line : pre = [] \/ exists x, pre = x ++ [b_nl] }.

Section Move.
Context {E : move}.

Definition pos (n : nat) : nat := length pre + n.
Definition sim (s s' : span) : Prop :=
  sp_inner s = suf /\ sp_inner s' = pre ++ suf /\ sp_start s <= sp_end s /\ sp_end s <= length suf /\
  sp_start s' = pos (sp_start s) /\ sp_end s' = pos (sp_end s) /\ sp_depth s' = sp_depth s.

Lemma pos_le i j : i <= j -> j <= length suf -> pos i <= pos j.
Proof. unfold pos. lia. Qed.
Lemma pos_ltb i j : i <= length suf -> j <= length suf -> (pos i <? pos j) = (i <? j).
Proof. intros _ _. unfold pos. destruct (Nat.ltb_spec (length pre + i) (length pre + j)), (Nat.ltb_spec i j); auto; lia. Qed.
Lemma pos_eqb i j : i <= length suf -> j <= length suf -> (pos i =? pos j) = (i =? j).
Proof. intros _ _. unfold pos. destruct (Nat.eqb_spec (length pre + i) (length pre + j)), (Nat.eqb_spec i j); auto; lia. Qed.
Lemma sim_ok s s' : sim s s' -> span_ok s /\ span_ok s'.
Proof.
  intros (E1 & E2 & H1 & H2 & P1 & P2 & _). unfold pos in *. split; split; rewrite ?E1, ?E2, ?app_length; lia.
Qed.
Lemma sim_rem s s' : sim s s' -> remaining s' = remaining s.
Proof.
  intros (E1 & E2 & H1 & H2 & P1 & P2 & _). unfold remaining, slice. rewrite E1, E2, P1, P2. unfold pos.
  rewrite skipn_app. replace (length pre + sp_start s - length pre) with (sp_start s) by lia.
  rewrite skipn_all2 by lia. cbn [app]. f_equal. lia.
Qed.
Lemma sim_len s s' : sim s s' -> remaining_len s' = remaining_len s.
Proof. intro H. destruct (sim_ok _ _ H) as [O1 O2]. rewrite !remaining_len_eq by auto. f_equal. now apply sim_rem. Qed.
Lemma sim_empty s s' : sim s s' -> (remaining_len s' =? 0) = (remaining_len s =? 0).
Proof. intro H. now rewrite (sim_len _ _ H). Qed.
Lemma sim_con s s' : sim s s' -> consumed s' = pre ++ consumed s.
Proof.
  intros (E1 & E2 & H1 & H2 & P1 & P2 & _). unfold consumed. rewrite E1, E2, P1. unfold pos. rewrite firstn_app.
  replace (length pre + sp_start s - length pre) with (sp_start s) by lia. now rewrite firstn_all2 by lia.
Qed.
Lemma rem_end s s' : sim s s' -> remaining_len s = sp_end s - sp_start s.
Proof. intros (E1 & E2 & H1 & H2 & P1 & P2 & _). unfold remaining_len. destruct (Nat.leb_spec (sp_start s) (sp_end s)); lia. Qed.
Lemma sim_adv s s' n : sim s s' -> sim (advance_start_by n s) (advance_start_by n s').
Proof.
  intros (E1 & E2 & H1 & H2 & P1 & P2 & D). unfold advance_start_by, pos in *. rewrite P1, P2.
  destruct (Nat.ltb_spec (sp_end s) (sp_start s + n)), (Nat.ltb_spec (length pre + sp_end s) (length pre + sp_start s + n)); try lia;
    repeat split; simpl; auto; unfold pos; lia.
Qed.
Lemma sim_end s s' n : sim s s' -> n <= remaining_len s -> sim (advance_end_by n s) (advance_end_by n s').
Proof.
  intros H L. rewrite (rem_end _ _ H) in L. destruct H as (E1 & E2 & H1 & H2 & P1 & P2 & D). unfold advance_end_by, pos in *.
  repeat split; simpl; auto; unfold pos; lia.
Qed.
Lemma sim_eqb s s' t t' : sim s s' -> sim t t' -> span_eqb s' t' = span_eqb s t.
Proof.
  intros (E1 & E2 & H1 & H2 & P1 & P2 & D) (F1 & F2 & G1 & G2 & Q1 & Q2 & D2). unfold span_eqb.
  rewrite E1, E2, F1, F2, P1, P2, Q1, Q2, D, D2, !str_eqb_refl, !pos_eqb by lia. reflexivity.
Qed.
Lemma sim_depth d s s' : sim s s' -> sim (with_depth d s) (with_depth d s').
Proof. intros (E1 & E2 & H1 & H2 & P1 & P2 & D). repeat split; auto. Qed.

Definition simL (s s' : span) : Prop := sim s s' /\ True.
Lemma simL_rem s s' : simL s s' -> remaining s' = remaining s.
Proof. intros [H _]. now apply sim_rem. Qed.
Lemma simL_len s s' : simL s s' -> remaining_len s' = remaining_len s.
Proof. intros [H _]. now apply sim_len. Qed.

(** * Results *)

Definition rel {A} (R : A -> A -> Prop) (r r' : res A) : Prop :=
  match r, r' with
  | OutOfFuel, _ => True
  | _, OutOfFuel => True
  | Ok s a, Ok s' a' => sim s s' /\ R a a'
  | Err, Err => True
  | Panic, Panic => True
  | _, _ => False
  end.
Definition simp {A} (R : A -> A -> Prop) (p p' : parser A) : Prop := forall s s', sim s s' -> rel R (p s) (p' s').
Definition simpL {A} (R : A -> A -> Prop) (p p' : parser A) : Prop := forall s s', simL s s' -> rel R (p s) (p' s').
Definition any {A} (_ _ : A) : Prop := True.

Lemma rel_weaken {A} (R Q : A -> A -> Prop) r r' : rel R r r' -> (forall a a', R a a' -> Q a a') -> rel Q r r'.
Proof. destruct r, r'; simpl; intuition. Qed.
Lemma simp_weaken {A} (R Q : A -> A -> Prop) p p' : simp R p p' -> (forall a a', R a a' -> Q a a') -> simp Q p p'.
Proof. intros H W s s' Hs. eapply rel_weaken; [now apply H|exact W]. Qed.
Lemma simp_L {A} (R : A -> A -> Prop) p p' : simp R p p' -> simpL R p p'.
Proof. intros H s s' [Hs _]. now apply H. Qed.
Lemma rel_any {A} (R : A -> A -> Prop) r r' : rel R r r' -> rel any r r'.
Proof. intro H. eapply rel_weaken; [exact H|]. intros; exact I. Qed.
Lemma simp_any {A} (R : A -> A -> Prop) p p' : simp R p p' -> simp any p p'.
Proof. intro H. eapply simp_weaken; [exact H|]. intros; exact I. Qed.

Lemma rel_bind {A B} (R : A -> A -> Prop) (Q : B -> B -> Prop) r r' f f' :
  rel R r r' -> (forall s s' a a', sim s s' -> R a a' -> rel Q (f s a) (f' s' a')) ->
  rel Q (bind r f) (bind r' f').
Proof.
  destruct r, r'; simpl; try tauto; intros H W; auto.
  - destruct H. now apply W.
  - destruct (f s a); auto.
Qed.
(** The rest is not used: nothing need be known about it. *)
Definition relv {A} (R : A -> A -> Prop) (r r' : res A) : Prop :=
  match r, r' with
  | OutOfFuel, _ => True
  | _, OutOfFuel => True
  | Ok _ a, Ok _ a' => R a a'
  | Err, Err => True
  | Panic, Panic => True
  | _, _ => False
  end.
Lemma rel_bindv {A B} (R : A -> A -> Prop) (Q : B -> B -> Prop) r r' (f f' : A -> res B) :
  relv R r r' -> (forall a a', R a a' -> rel Q (f a) (f' a')) ->
  rel Q (bind r (fun _ a => f a)) (bind r' (fun _ a => f' a)).
Proof.
  destruct r, r'; simpl; try tauto; intros H W; auto. destruct (f a); auto.
Qed.
Lemma rel_relv {A} (R : A -> A -> Prop) r r' : rel R r r' -> relv R r r'.
Proof. destruct r, r'; simpl; tauto. Qed.

Lemma simp_bind {A B} (R : A -> A -> Prop) (Q : B -> B -> Prop) p p' (f f' : span -> A -> res B) :
  simp R p p' -> (forall s s' a a', sim s s' -> R a a' -> rel Q (f s a) (f' s' a')) ->
  simp Q (fun s => bind (p s) f) (fun s => bind (p' s) f').
Proof. intros H W s s' Hs. eapply rel_bind; [now apply H|exact W]. Qed.

Lemma rel_ok {A} (R : A -> A -> Prop) s s' a a' : sim s s' -> R a a' -> rel R (Ok s a) (Ok s' a').
Proof. simpl. auto. Qed.

(** * Combinators *)

Lemma simp_pmap {A B} (R : A -> A -> Prop) (Q : B -> B -> Prop) p p' (f f' : A -> B) :
  simp R p p' -> (forall a a', R a a' -> Q (f a) (f' a')) -> simp Q (pmap p f) (pmap p' f').
Proof. intros H W s s' Hs. eapply rel_bind; [now apply H|]. intros. apply rel_ok; auto. Qed.
Lemma simp_value {A B} (R : A -> A -> Prop) p p' (b : B) : simp R p p' -> simp eq (value b p) (value b p').
Proof. intro H. eapply simp_pmap; [exact H|]. reflexivity. Qed.
Definition opt_rel {A} (R : A -> A -> Prop) (o o' : option A) : Prop :=
  match o, o' with Some a, Some a' => R a a' | None, None => True | _, _ => False end.
Lemma rel_opt {A} (R : A -> A -> Prop) (p p' : parser A) s s' : sim s s' -> rel R (p s) (p' s') ->
  rel (opt_rel R) (opt p s) (opt p' s').
Proof. intros Hs H. unfold opt. destruct (p s), (p' s'); simpl in *; try tauto. Qed.
Lemma simp_opt {A} (R : A -> A -> Prop) p p' : simp R p p' -> simp (opt_rel R) (opt p) (opt p').
Proof. intros H s s' Hs. apply rel_opt; auto. Qed.
Lemma rel_peek {A} (R : A -> A -> Prop) (p p' : parser A) s s' : sim s s' -> rel R (p s) (p' s') -> rel R (peek p s) (peek p' s').
Proof. intros Hs H. eapply rel_bind; [exact H|]. intros. now apply rel_ok. Qed.
Lemma simp_peek {A} (R : A -> A -> Prop) p p' : simp R p p' -> simp R (peek p) (peek p').
Proof. intros H s s' Hs. apply rel_peek; auto. Qed.
Lemma rel_pnot {A} (R : A -> A -> Prop) (p p' : parser A) s s' : sim s s' -> rel R (p s) (p' s') ->
  rel any (pnot p s) (pnot p' s').
Proof. intros Hs H. unfold pnot. destruct (p s), (p' s'); simpl in *; try tauto. Qed.
Lemma simp_pnot {A} (R : A -> A -> Prop) p p' : simp R p p' -> simp any (pnot p) (pnot p').
Proof. intros H s s' Hs. eapply rel_pnot; auto. Qed.
Lemma simp_verify {A} (R : A -> A -> Prop) p p' (f f' : A -> bool) :
  simp R p p' -> (forall a a', R a a' -> f' a' = f a) -> simp R (verify p f) (verify p' f').
Proof.
  intros H W s s' Hs. eapply rel_bind; [now apply H|]. intros t t' a a' Ht Ha. rewrite (W _ _ Ha).
  destruct (f a); simpl; auto.
Qed.
Lemma simp_map_opt {A B} (R : A -> A -> Prop) (Q : B -> B -> Prop) p p' (f f' : A -> option B) :
  simp R p p' -> (forall a a', R a a' -> opt_rel Q (f a) (f' a')) -> simp Q (map_opt p f) (map_opt p' f').
Proof.
  intros H W s s' Hs. eapply rel_bind; [now apply H|]. intros t t' a a' Ht Ha. specialize (W _ _ Ha).
  destruct (f a), (f' a'); simpl in *; tauto.
Qed.
(** The inner parser works on a line. *)
Lemma simp_map_parser {B} (Q : B -> B -> Prop) p p' (q q' : parser B) :
  simp simL p p' -> simpL Q q q' -> simp Q (map_parser p q) (map_parser p' q').
Proof.
  intros H W s s' Hs. eapply rel_bind; [now apply H|]. intros t t' o o' Ht Ho.
  eapply rel_bind; [now apply W|]. intros. now apply rel_ok.
Qed.
Lemma rel_palt {A} (R : A -> A -> Prop) (p p' q q' : parser A) s s' :
  rel R (p s) (p' s') -> rel R (q s) (q' s') -> rel R (palt p q s) (palt p' q' s').
Proof.
  intros H1 H2. unfold palt. destruct (p s), (p' s'); simpl in *; try tauto. destruct (q s); exact I.
Qed.
Lemma simp_palt {A} (R : A -> A -> Prop) p p' q q' : simp R p p' -> simp R q q' -> simp R (palt p q) (palt p' q').
Proof. intros H1 H2 s s' Hs. apply rel_palt; auto. Qed.
Lemma simp_fail {A} (R : A -> A -> Prop) : simp R fail fail.
Proof. intros s s' _. exact I. Qed.
Lemma simp_alt {A} (R : A -> A -> Prop) ps ps' : Forall2 (simp R) ps ps' -> simp R (alt ps) (alt ps').
Proof. induction 1; [apply simp_fail|]. apply simp_palt; auto. Qed.
Definition pair_rel {A B} (R : A -> A -> Prop) (Q : B -> B -> Prop) (x y : A * B) : Prop := R (fst x) (fst y) /\ Q (snd x) (snd y).
Lemma simp_pair {A B} (R : A -> A -> Prop) (Q : B -> B -> Prop) p p' q q' :
  simp R p p' -> simp Q q q' -> simp (pair_rel R Q) (pair p q) (pair p' q').
Proof.
  intros H W s s' Hs. eapply rel_bind; [now apply H|]. intros t t' a a' Ht Ha. eapply rel_bind; [now apply W|].
  intros. apply rel_ok; auto. split; auto.
Qed.
Lemma simp_preceded {A B} (R : A -> A -> Prop) (Q : B -> B -> Prop) p p' (q q' : parser B) :
  simp R p p' -> simp Q q q' -> simp Q (preceded p q) (preceded p' q').
Proof. intros H W s s' Hs. eapply rel_bind; [now apply H|]. intros t t' a a' Ht Ha. now apply W. Qed.
Lemma simp_terminated {A B} (R : A -> A -> Prop) (Q : B -> B -> Prop) p p' (q q' : parser B) :
  simp R p p' -> simp Q q q' -> simp R (terminated p q) (terminated p' q').
Proof.
  intros H W s s' Hs. eapply rel_bind; [now apply H|]. intros t t' a a' Ht Ha. eapply rel_bind; [now apply W|].
  intros. now apply rel_ok.
Qed.
Lemma simp_delimited {A B C} (R : A -> A -> Prop) (Q : B -> B -> Prop) (S : C -> C -> Prop) p p' q q' r r' :
  simp R p p' -> simp Q q q' -> simp S r r' -> simp Q (delimited p q r) (delimited p' q' r').
Proof. intros. eapply simp_preceded; eauto. eapply simp_terminated; eauto. Qed.
Lemma simp_separated_pair {A B C} (R : A -> A -> Prop) (Q : B -> B -> Prop) (S : C -> C -> Prop) p p' q q' r r' :
  simp R p p' -> simp Q q q' -> simp S r r' -> simp (pair_rel R S) (separated_pair p q r) (separated_pair p' q' r').
Proof.
  intros H W V s s' Hs. eapply rel_bind; [now apply H|]. intros t t' a a' Ht Ha. eapply rel_bind; [now apply W|].
  intros. eapply rel_bind; [now apply V|]. intros. apply rel_ok; auto. split; auto.
Qed.
Lemma simp_recognize {A} (R : A -> A -> Prop) (p p' : parser A) : simp R p p' -> simp sim (recognize p) (recognize p').
Proof.
  intros H s s' Hs. eapply rel_bind; [now apply H|]. intros t t' a a' Ht Ha.
  destruct Hs as (E1 & E2 & H1 & H2 & P1 & P2 & D). pose proof Ht as (F1 & F2 & G1 & G2 & Q1 & Q2 & D2).
  rewrite P1, Q1, pos_ltb by lia. destruct (sp_start t <? sp_start s) eqn:C; [exact I|]. apply Nat.ltb_ge in C.
  apply rel_ok; auto. unfold advance_end_by. repeat split; simpl; auto; try lia.
  assert (pos (sp_start s) <= pos (sp_start t)) by (apply pos_le; lia).
  rewrite P1. replace (sp_start s + (sp_start t - sp_start s)) with (sp_start t) by lia. lia.
Qed.
Lemma rel_many0 {A} (R : A -> A -> Prop) p p' : simp R p p' -> forall f f' s s', sim s s' ->
  rel (Forall2 R) (many0_fuel f p s) (many0_fuel f' p' s').
Proof.
  intro H. induction f as [|f IH]; intros f' s s' Hs; [exact I|]. destruct f' as [|f'].
  { destruct (many0_fuel (S f) p s); exact I. }
  cbn [many0_fuel]. pose proof (H _ _ Hs) as Hp. destruct (p s) as [t a| | |], (p' s') as [t' a'| | |]; simpl in Hp; try contradiction; try exact I.
  - destruct Hp as [Ht Ha]. rewrite (sim_eqb _ _ _ _ Ht Hs). destruct (span_eqb t s); [exact I|].
    eapply rel_bind; [now apply IH|]. intros. apply rel_ok; auto.
  - destruct (span_eqb t s); [exact I|]. destruct (bind _ _); exact I.
  - simpl. auto.
Qed.
Lemma simp_many0 {A} (R : A -> A -> Prop) p p' : simp R p p' -> simp (Forall2 R) (many0 p) (many0 p').
Proof. intros H s s' Hs. apply rel_many0; auto. Qed.
Lemma simp_many1 {A} (R : A -> A -> Prop) p p' : simp R p p' -> simp (Forall2 R) (many1 p) (many1 p').
Proof.
  intros H s s' Hs. eapply rel_bind; [now apply H|]. intros. eapply rel_bind; [eapply simp_many0; eauto|].
  intros. apply rel_ok; auto.
Qed.
Lemma rel_sep {A B} (R : A -> A -> Prop) (Q : B -> B -> Prop) sep sep' p p' : simp Q sep sep' -> simp R p p' -> forall f f' s s', sim s s' ->
  rel (Forall2 R) (sep_loop f sep p s) (sep_loop f' sep' p' s').
Proof.
  intros W H. induction f as [|f IH]; intros f' s s' Hs; [exact I|]. destruct f' as [|f'].
  { destruct (sep_loop (S f) sep p s); exact I. }
  cbn [sep_loop]. pose proof (W _ _ Hs) as Hp. destruct (sep s) as [t a| | |], (sep' s') as [t' a'| | |]; simpl in Hp; try contradiction; try exact I.
  - destruct Hp as [Ht Ha]. rewrite (sim_eqb _ _ _ _ Ht Hs). destruct (span_eqb t s); [exact I|].
    pose proof (H _ _ Ht) as Hp. destruct (p t) as [v b| | |], (p' t') as [v' b'| | |]; simpl in Hp; try contradiction; try exact I.
    + eapply rel_bind; [apply IH; tauto|]. intros. apply rel_ok; auto. constructor; tauto.
    + destruct (bind _ _); exact I.
    + simpl. auto.
  - destruct (span_eqb t s); [exact I|]. destruct (p t); try exact I. destruct (bind _ _); exact I.
  - simpl. auto.
Qed.
Lemma simp_sep1 {A B} (R : A -> A -> Prop) (Q : B -> B -> Prop) sep sep' p p' : simp Q sep sep' -> simp R p p' ->
  simp (Forall2 R) (separated_list1 sep p) (separated_list1 sep' p').
Proof.
  intros W H s s' Hs. eapply rel_bind; [now apply H|]. intros. eapply rel_bind; [eapply rel_sep; eauto|].
  intros. apply rel_ok; auto.
Qed.
Lemma simp_sep0 {A B} (R : A -> A -> Prop) (Q : B -> B -> Prop) sep sep' p p' : simp Q sep sep' -> simp R p p' ->
  simp (Forall2 R) (separated_list0 sep p) (separated_list0 sep' p').
Proof.
  intros W H s s' Hs. unfold separated_list0. pose proof (H _ _ Hs) as Hp.
  destruct (p s) as [t a| | |], (p' s') as [t' a'| | |]; simpl in Hp; try contradiction; try exact I.
  - eapply rel_bind; [eapply rel_sep; eauto; tauto|]. intros. apply rel_ok; auto. constructor; tauto.
  - destruct (bind _ _); exact I.
  - simpl. auto.
Qed.
Lemma simp_all_consuming {A} (R : A -> A -> Prop) p p' : simp R p p' -> simp R (all_consuming p) (all_consuming p').
Proof.
  intros H s s' Hs. eapply rel_bind; [now apply H|]. intros t t' a a' Ht Ha. rewrite (sim_empty _ _ Ht).
  destruct (_ =? 0); simpl; auto.
Qed.
Lemma simp_deeper {A} (R : A -> A -> Prop) p p' : simp R p p' -> simp R (deeper p) (deeper p').
Proof.
  intros H s s' Hs. pose proof Hs as (_ & _ & _ & _ & _ & _ & D). eapply rel_bind.
  - apply H. unfold with_deeper. rewrite D. now apply sim_depth.
  - intros t t' a a' Ht Ha. apply rel_ok; auto. pose proof Ht as (_ & _ & _ & _ & _ & _ & D2). unfold with_shallower. rewrite D2.
    now apply sim_depth.
Qed.
Lemma simpL_deeper {A} (R : A -> A -> Prop) p p' : simpL R p p' -> simpL R (deeper p) (deeper p').
Proof.
  intros H s s' [Hs N]. pose proof Hs as (_ & _ & _ & _ & _ & _ & D). eapply rel_bind.
  - apply H. unfold with_deeper. rewrite D. split; [now apply sim_depth|exact N].
  - intros t t' a a' Ht Ha. apply rel_ok; auto. pose proof Ht as (_ & _ & _ & _ & _ & _ & D2). unfold with_shallower. rewrite D2.
    now apply sim_depth.
Qed.

(** Related values found at related places. *)
Definition sh (r : region) : region := shift (length pre) r.
Definition RL {A} (R : A -> A -> Prop) (x x' : located A) : Prop :=
  R (l_val x) (l_val x') /\ r_off (l_reg x) <= length suf /\ l_reg x' = sh (l_reg x).
Lemma wl_sim n s s' : sim s s' -> sim (with_length n s) (with_length n s').
Proof.
  intro H. pose proof (rem_end _ _ H) as L. unfold with_length. rewrite (sim_len _ _ H). destruct (Nat.ltb_spec n (remaining_len s)); [|exact H].
  apply sim_end; auto. lia.
Qed.
Lemma region_sim s s' : sim s s' -> region_of s' = sh (region_of s).
Proof.
  intro H. unfold region_of. rewrite (sim_len _ _ H). destruct H as (E1 & E2 & H1 & H2 & P1 & P2 & D). rewrite P1, D. reflexivity.
Qed.
Lemma rel_located {A} (R : A -> A -> Prop) (p p' : parser A) s s' : sim s s' -> rel R (p s) (p' s') ->
  rel (RL R) (located_p p s) (located_p p' s').
Proof.
  intros Hs H. unfold located_p, locate, capture.
  destruct (p s) as [t a| | |], (p' s') as [t' a'| | |]; simpl in *; try tauto.
  - destruct H as [Ht Ha]. pose proof Hs as (E1 & E2 & H1 & H2 & P1 & P2 & D). pose proof Ht as (F1 & F2 & G1 & G2 & Q1 & Q2 & D2).
    rewrite P1, Q1, pos_ltb by lia. destruct (sp_start t <? sp_start s) eqn:C; [exact I|]. simpl. split; auto.
    replace (pos (sp_start t) - pos (sp_start s)) with (sp_start t - sp_start s) by (unfold pos; lia).
    split; [exact Ha|]. pose proof (wl_sim (sp_start t - sp_start s) _ _ Hs) as W. cbn [snd]. split; [|exact (region_sim _ _ W)].
    destruct W as (_ & _ & W1 & W2 & _). simpl in *. lia.
  - destruct (_ <? _); exact I.
Qed.
Lemma simp_located {A} (R : A -> A -> Prop) p p' : simp R p p' -> simp (RL R) (located_p p) (located_p p').
Proof. intros H s s' Hs. apply rel_located; auto. Qed.
Lemma RL_lmap {A B} (R : A -> A -> Prop) (Q : B -> B -> Prop) (f f' : A -> B) x x' :
  RL R x x' -> (forall a a', R a a' -> Q (f a) (f' a')) -> RL Q (lmap f x) (lmap f' x').
Proof. intros (H1 & H2 & H3) W. repeat split; simpl; auto. Qed.
Lemma simp_lmap {A B} (R : A -> A -> Prop) (Q : B -> B -> Prop) p p' (f f' : A -> B) :
  simp (RL R) p p' -> (forall a a', R a a' -> Q (f a) (f' a')) -> simp (RL Q) (pmap p (lmap f)) (pmap p' (lmap f')).
Proof. intros H W. eapply simp_pmap; [exact H|]. intros. eapply RL_lmap; eauto. Qed.

(** * Primitives *)

Lemma simp_ret {A} (R : A -> A -> Prop) a a' : R a a' -> simp R (ret a) (ret a').
Proof. intros H s s' Hs. now apply rel_ok. Qed.
Lemma simL_sim : forall o o', simL o o' -> sim o o'.
Proof. now intros o o' []. Qed.
Lemma split_sim s s' n : sim s s' -> n <= length (remaining s) -> rel simL (ok_split n s) (ok_split n s').
Proof.
  intros Hs L. destruct (sim_ok _ _ Hs) as [O _]. rewrite <- remaining_len_eq in L by auto.
  split; [now apply sim_adv|]. split; [now apply sim_end|exact I].
Qed.
Lemma simp_tag t : clean t -> simp simL (tag t) (tag t).
Proof.
  intros _ s s' Hs. unfold tag. rewrite (sim_rem _ _ Hs). destruct (starts_with t (remaining s)) eqn:C; [|exact I].
  apply split_sim; auto. apply starts_with_spec in C as [r ->]. rewrite app_length. lia.
Qed.
Lemma tag_any t : simp any (tag t) (tag t).
Proof.
  intros s s' Hs. unfold tag. rewrite (sim_rem _ _ Hs). destruct (starts_with t (remaining s)) eqn:C; [|exact I].
  eapply rel_any, split_sim; auto. apply starts_with_spec in C as [r ->]. rewrite app_length. lia.
Qed.
Lemma simp_pchar c : c <> b_nl -> c <> b_cr -> simp eq (pchar c) (pchar c).
Proof.
  intros _ _ s s' Hs. unfold pchar. rewrite (sim_rem _ _ Hs). destruct (remaining s) as [|b r]; [exact I|].
  destruct (beqb b c); [|exact I]. apply rel_ok; auto. now apply sim_adv.
Qed.
Lemma simp_one_of cs : clean cs -> simp eq (one_of cs) (one_of cs).
Proof.
  intros _ s s' Hs. unfold one_of. rewrite (sim_rem _ _ Hs). destruct (remaining s) as [|b r]; [exact I|].
  destruct (existsb _ cs); [|exact I]. apply rel_ok; auto. now apply sim_adv.
Qed.
Lemma simp_anychar : simp eq anychar anychar.
Proof.
  intros s s' Hs. unfold anychar. rewrite (sim_rem _ _ Hs). destruct (remaining s) as [|b r]; [exact I|]. apply rel_ok; auto. now apply sim_adv.
Qed.
Lemma simp_take_while0 p : p b_nl = false -> p b_cr = false -> simp simL (take_while0 p) (take_while0 p).
Proof. intros _ _ s s' Hs. unfold take_while0. rewrite (sim_rem _ _ Hs). apply split_sim; auto. apply count_while_le. Qed.
Lemma simp_take_while1 p : p b_nl = false -> p b_cr = false -> simp simL (take_while1 p) (take_while1 p).
Proof.
  intros _ _ s s' Hs. unfold take_while1. cbv zeta. rewrite (sim_rem _ _ Hs). destruct (_ =? 0); [exact I|]. apply split_sim; auto. apply count_while_le.
Qed.
Lemma simp_space0 : simp simL space0 space0.
Proof. now apply simp_take_while0. Qed.
Lemma simp_space1 : simp simL space1 space1.
Proof. now apply simp_take_while1. Qed.
Lemma simp_digit1 : simp simL digit1 digit1.
Proof. now apply simp_take_while1. Qed.
Lemma simp_line_ending : simp any line_ending line_ending.
Proof. apply simp_palt; apply tag_any. Qed.
Lemma simp_eoi : simp any end_of_line_or_input end_of_line_or_input.
Proof.
  intros s s' Hs. unfold end_of_line_or_input, sp_is_empty. rewrite (sim_empty _ _ Hs). destruct (_ =? 0).
  - simpl. split; [exact Hs|exact I].
  - eapply rel_bind; [now apply simp_line_ending|]. intros. now apply rel_ok.
Qed.
Lemma simp_multispace : simp any single_multispace single_multispace.
Proof. eapply simp_pmap with (R := any); [|reflexivity]. apply simp_alt. repeat constructor; apply tag_any. Qed.

(** What stands before. *)
Lemma before_same s s' (f : byte -> bool) : f b_nl = true -> sim s s' ->
  match rev (consumed s') with [] => true | c :: _ => f c end = match rev (consumed s) with [] => true | c :: _ => f c end.
Proof.
  intros F Hs. rewrite (sim_con _ _ Hs), rev_app_distr. destruct (rev (consumed s)) as [|c l]; [|reflexivity]. cbn [app].
  destruct pre_line as [->|[x ->]]; [reflexivity|]. rewrite rev_app_distr. exact F.
Qed.
Lemma simp_whole_word : simp simL whole_word whole_word.
Proof.
  intros s s' Hs. unfold whole_word. cbv zeta. rewrite (before_same s s' is_ascii_ws eq_refl Hs).
  destruct (negb _); [exact I|]. now apply simp_take_while1.
Qed.
Lemma simp_bol : simp any beginning_of_line beginning_of_line.
Proof.
  intros s s' Hs. unfold beginning_of_line.
  pose proof (before_same s s' is_nl eq_refl Hs) as B.
  destruct (rev (consumed s)) as [|c l], (rev (consumed s')) as [|c' l']; simpl in *; try (split; [exact Hs|exact I]).
  - rewrite B. split; [exact Hs|exact I].
  - rewrite <- B. split; [exact Hs|exact I].
  - rewrite B. destruct (is_nl c); [split; [exact Hs|exact I]|exact I].
Qed.
Lemma simp_tlu p : clean p -> p <> [] -> length p <= 2 -> simp simL (take_line_until p) (take_line_until p).
Proof. intros _ N L s s' Hs. unfold take_line_until. rewrite (sim_rem _ _ Hs). apply split_sim; auto. now apply (tlu_first p (remaining s) N L). Qed.
Lemma simp_tlu2 p q : clean p -> p <> [] -> clean q -> q <> [] ->
  simp simL (take_line_until_one_of_two p q) (take_line_until_one_of_two p q).
Proof. intros _ N _ M s s' Hs. unfold take_line_until_one_of_two. rewrite (sim_rem _ _ Hs). apply split_sim; auto. now apply (tlu2_first p q (remaining s) N M). Qed.
Lemma simp_tlu3 p q r : clean p -> p <> [] -> clean q -> q <> [] -> clean r -> r <> [] ->
  simp simL (take_line_until_one_of_three p q r) (take_line_until_one_of_three p q r).
Proof.
  intros _ N _ M _ K s s' Hs. unfold take_line_until_one_of_three. rewrite (sim_rem _ _ Hs). apply split_sim; auto.
  now apply (tlu3_first p q r (remaining s) N M K).
Qed.
Lemma ne_same o o' : simL o o' -> non_empty o' = non_empty o.
Proof. intro H. unfold non_empty, sp_is_empty. now rewrite (sim_empty _ _ (proj1 H)). Qed.
Lemma simp_tlu1_ p : simp simL p p -> simp simL (verify p non_empty) (verify p non_empty).
Proof. intro H. apply simp_verify; auto. exact ne_same. Qed.
Lemma takes_split s n r : span_ok s -> takes s n r -> r = ok_split n s.
Proof. intros O T. destruct T as [L ->]. destruct (ok_split_takes n s O L) as [_ ->]. reflexivity. Qed.
Lemma simp_to_eol : simp simL take_until_end_of_line_or_input take_until_end_of_line_or_input.
Proof.
  intros s s' Hs. destruct (sim_ok _ _ Hs) as [O1 O2].
  rewrite (takes_split _ _ _ O1 (take_until_eol_eq s O1)), (takes_split _ _ _ O2 (take_until_eol_eq s' O2)).
  rewrite (sim_rem _ _ Hs). apply split_sim; auto. now apply (eol_first (remaining s)).
Qed.
Lemma simp_not_line_ending : simp simL not_line_ending not_line_ending.
Proof.
  intros s s' Hs. destruct (sim_ok _ _ Hs) as [O1 O2]. unfold not_line_ending. rewrite (sim_rem _ _ Hs), (sim_len _ _ Hs).
  destruct (find_pos _ _) as [i|] eqn:F; cbv zeta.
  - destruct (_ && _); [exact I|]. apply split_sim; auto. apply find_pos_some in F as [(x & F & _) _].
    assert (i < length (remaining s)) by (apply nth_error_Some; congruence). lia.
  - apply split_sim; auto. rewrite remaining_len_eq; auto.
Qed.
Lemma simp_take_until p : clean p -> p <> [] -> simp sim (take_until p) (take_until p).
Proof.
  intros _ N s s' Hs. unfold take_until. rewrite (sim_rem _ _ Hs). pose proof (offset_of_spec p (remaining s) N) as F.
  destruct (offset_of p (remaining s)) as [n|]; [|exact I]. eapply rel_weaken; [apply split_sim; auto|now intros ? ? []].
  destruct F as [F _]. apply Nat.nlt_ge. intro L. unfold occ in F. rewrite skipn_all2 in F by lia. destruct p; [congruence|discriminate].
Qed.
Lemma simp_not_contains p q : simp simL q q -> simp simL (not_contains p q) (not_contains p q).
Proof.
  intros H s s' Hs. eapply rel_bind; [now apply H|]. intros t t' o o' Ht Ho. unfold pnot, offset.
  rewrite (simL_rem _ _ Ho). destruct (offset_of p (remaining o)); simpl; auto.
Qed.
Lemma rel_surround R bytes n s s' : sim s s' -> forall ps, Forall (fun i => i <= remaining_len s) ps ->
  rel simL (surround_loop R bytes n ps s) (surround_loop R bytes n ps s').
Proof.
  intros Hs. induction ps as [|i ps IH]; intro F; [exact I|]. cbn [surround_loop]. apply Forall_cons_iff in F as [F1 F2].
  destruct (match n with Some _ => _ | None => _ end); [exact I|]. destruct (i =? 0); [now apply IH|].
  pose proof (sim_adv _ _ i Hs) as A. cbv zeta. rewrite (sim_len _ _ A). destruct (Nat.ltb_spec (remaining_len (advance_start_by i s)) (length R)); [exact I|].
  rewrite (sim_rem _ _ (sim_end _ _ (length R) A ltac:(lia))). destruct (str_eqb _ _); [|now apply IH].
  apply rel_ok; [now apply sim_adv|]. split; [now apply sim_end|exact I].
Qed.
Lemma simp_surround L R : clean L -> clean R -> R <> [] -> simp simL (surround_in_line1 L R) (surround_in_line1 L R).
Proof.
  intros _ _ N s s' Hs. unfold surround_in_line1. eapply rel_bind; [now apply tag_any|]. intros t t' _ _ Ht _.
  destruct (sim_ok _ _ Ht) as [O1 O2]. rewrite (sim_rem _ _ Ht). apply rel_surround; auto.
  apply Forall_forall. intros i X. apply positions_lt in X. rewrite remaining_len_eq by auto. lia.
Qed.
Lemma simp_tlw1 c : c <> b_nl -> c <> b_cr -> simp simL (take_line_while1 (pchar c)) (take_line_while1 (pchar c)).
Proof.
  intros C1 C2. apply simp_tlu1_. eapply simp_weaken with (R := sim); [|intros; split; auto].
  apply simp_recognize with (R := Forall2 eq), simp_many0. intros s s' Hs. unfold single_char.
  eapply rel_bind; [apply (simp_pnot _ _ _ simp_eoi); exact Hs|]. intros t t' _ _ Ht _.
  eapply rel_bindv; [eapply rel_relv, (simp_pchar c C1 C2); exact Ht|]. intros. now apply simp_anychar.
Qed.
Lemma simp_blank : simp any blank_line blank_line.
Proof.
  eapply simp_preceded; [exact simp_bol|]. apply simp_palt.
  - eapply simp_terminated; [exact (simp_any _ _ _ simp_space1)|exact simp_eoi].
  - eapply simp_terminated; [exact (simp_any _ _ _ simp_space0)|exact simp_line_ending].
Qed.
Lemma simp_rest_of_line : simp simL rest_of_line rest_of_line.
Proof.
  intros s s' Hs. eapply rel_bind; [now apply simp_to_eol|]. intros t t' o o' Ht Ho. eapply rel_bind; [now apply simp_eoi|].
  intros. now apply rel_ok.
Qed.
Lemma simp_any_line : simp simL any_line any_line.
Proof.
  intros s s' Hs. eapply rel_bind; [now apply simp_bol|]. intros t t' o o' Ht Ho. eapply rel_bind; [now apply simp_rest_of_line|].
  intros. now apply rel_ok.
Qed.
Lemma simpL_cow : simpL eq cow_str cow_str.
Proof. intros s s' Hs. apply rel_ok; [apply Hs|]. symmetry. now apply simL_rem. Qed.
Lemma simpL_count : simpL eq count_remaining_bytes count_remaining_bytes.
Proof. intros s s' Hs. apply rel_ok; [apply Hs|]. symmetry. now apply simL_len. Qed.
End Move.
