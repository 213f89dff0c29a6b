(** Two runs of a parser side by side: spans, combinators, primitives. *)
From Verif Require Import Base ModelAst ModelTable ModelLink ModelInline ModelBlock ModelSpan ModelComb
  SpecDoc SpecTree SpecSpan SpecLines ProofBase ProofBytes ProofSpan ProofLines1.

Class twin := { toks : list tok; toks_nocr : nocr toks }.

Section Twin.
Context {E : twin}.

Definition pos (n : nat) : nat := length (w (firstn n toks)).
Definition sim (s s' : span) : Prop :=
  sp_inner s = u toks /\ sp_inner s' = w toks /\ sp_start s <= sp_end s /\ sp_end s <= length toks /\
  sp_start s' = pos (sp_start s) /\ sp_end s' = pos (sp_end s) /\ sp_depth s' = sp_depth s.
(** The tokens that remain. *)
Definition k (s : span) : list tok := slice (sp_start s) (sp_end s) toks.

Lemma pos_add i n : i + n <= length toks -> pos (i + n) = pos i + length (w (firstn n (skipn i toks))).
Proof.
  intro H. unfold pos. rewrite <- app_length, <- w_app. do 2 f_equal.
  rewrite <- (firstn_skipn i toks) at 1. rewrite firstn_app, firstn_length, Nat.min_l, firstn_firstn, Nat.min_r by lia.
  f_equal. f_equal. lia.
Qed.
Lemma pos_lt i j : i < j -> j <= length toks -> pos i < pos j.
Proof.
  intros H1 H2. replace j with (i + (j - i)) by lia. rewrite pos_add by lia.
  pose proof (w_long (firstn (j - i) (skipn i toks))) as L. rewrite firstn_length, skipn_length in L. lia.
Qed.
Lemma pos_le i j : i <= j -> j <= length toks -> pos i <= pos j.
Proof. intros H1 H2. destruct (Nat.eq_dec i j) as [->|N]; [lia|]. pose proof (pos_lt i j). lia. Qed.
Lemma pos_all : pos (length toks) = length (w toks).
Proof. unfold pos. now rewrite firstn_all. Qed.
Lemma pos_inj i j : i <= length toks -> j <= length toks -> pos i = pos j -> i = j.
Proof.
  intros H1 H2 H. destruct (Nat.lt_trichotomy i j) as [L|[L|L]]; auto; apply pos_lt in L; lia.
Qed.
Lemma pos_ltb i j : i <= length toks -> j <= length toks -> (pos i <? pos j) = (i <? j).
Proof.
  intros H1 H2. destruct (i <? j) eqn:C.
  - apply Nat.ltb_lt in C. apply Nat.ltb_lt. now apply pos_lt.
  - apply Nat.ltb_ge in C. apply Nat.ltb_ge. now apply pos_le.
Qed.
Lemma pos_eqb i j : i <= length toks -> j <= length toks -> (pos i =? pos j) = (i =? j).
Proof.
  intros H1 H2. destruct (i =? j) eqn:C.
  - apply Nat.eqb_eq in C. subst. apply Nat.eqb_refl.
  - apply Nat.eqb_neq in C. apply Nat.eqb_neq. intro X. apply C. now apply pos_inj.
Qed.
Lemma w_take i : i <= length toks -> firstn (pos i) (w toks) = w (firstn i toks) /\ skipn (pos i) (w toks) = w (skipn i toks).
Proof.
  intro H. rewrite (w_split i toks). unfold pos. rewrite firstn_app, skipn_app, firstn_all, skipn_all, Nat.sub_diag. simpl.
  rewrite app_nil_r. auto.
Qed.

Lemma k_nocr s : nocr (k s).
Proof. apply nocr_slice, toks_nocr. Qed.
Lemma k_length s s' : sim s s' -> length (k s) = sp_end s - sp_start s.
Proof. intros (_ & _ & H1 & H2 & _). unfold k. apply slice_length. exact H2. Qed.
Lemma sim_ok s s' : sim s s' -> span_ok s /\ span_ok s'.
Proof.
  intros (E1 & E2 & H1 & H2 & P1 & P2 & _). split; split.
  - exact H1.
  - rewrite E1, u_length. exact H2.
  - rewrite P1, P2. now apply pos_le.
  - rewrite E2, P2, <- pos_all. now apply pos_le.
Qed.
Lemma sim_rem s s' : sim s s' -> remaining s = u (k s) /\ remaining s' = w (k s).
Proof.
  intros (E1 & E2 & H1 & H2 & P1 & P2 & _). unfold remaining, k. rewrite E1, E2, P1, P2. unfold slice. split.
  - now rewrite u_skipn, u_firstn.
  - replace (pos (sp_end s)) with (pos (sp_start s + (sp_end s - sp_start s))) by (f_equal; lia).
    rewrite pos_add by lia. rewrite (proj2 (w_take (sp_start s) ltac:(lia))).
    rewrite (w_split (sp_end s - sp_start s) (skipn (sp_start s) toks)).
    replace (_ + _ - _) with (length (w (firstn (sp_end s - sp_start s) (skipn (sp_start s) toks)))) by lia.
    rewrite firstn_app, firstn_all, Nat.sub_diag. simpl. apply app_nil_r.
Qed.
Lemma sim_con s s' : sim s s' -> consumed s = u (firstn (sp_start s) toks) /\ consumed s' = w (firstn (sp_start s) toks).
Proof.
  intros (E1 & E2 & H1 & H2 & P1 & P2 & _). unfold consumed. rewrite E1, E2, P1. split; [apply u_firstn|].
  apply w_take. lia.
Qed.
Lemma sim_len s s' : sim s s' -> remaining_len s = length (k s) /\ remaining_len s' = length (w (k s)).
Proof.
  intro H. pose proof (sim_ok _ _ H) as [O1 O2]. destruct (sim_rem _ _ H) as [R1 R2]. rewrite !remaining_len_eq by auto.
  now rewrite R1, R2, u_length.
Qed.
Lemma sim_empty s s' : sim s s' -> (remaining_len s' =? 0) = (remaining_len s =? 0).
Proof.
  intro H. destruct (sim_len _ _ H) as [-> ->]. pose proof (w_long (k s)) as L. destruct (length (k s)) eqn:C.
  - destruct (k s); [reflexivity|discriminate].
  - destruct (length (w (k s))); [lia|reflexivity].
Qed.

Lemma sim_adv s s' n n' : sim s s' -> n <= length (k s) -> n' = length (w (firstn n (k s))) ->
  sim (advance_start_by n s) (advance_start_by n' s') /\ k (advance_start_by n s) = skipn n (k s) /\
  sp_start (advance_start_by n s) = sp_start s + n.
Proof.
  intros H L ->. pose proof (k_length _ _ H) as K. pose proof H as (E1 & E2 & H1 & H2 & P1 & P2 & D).
  assert (Q : pos (sp_start s + n) = pos (sp_start s) + length (w (firstn n (k s)))).
  { rewrite pos_add by lia. do 3 f_equal. unfold k, slice. rewrite firstn_firstn, Nat.min_l by lia. reflexivity. }
  assert (C1 : sp_end s <? sp_start s + n = false) by (apply Nat.ltb_ge; lia).
  assert (C2 : sp_end s' <? sp_start s' + length (w (firstn n (k s))) = false).
  { apply Nat.ltb_ge. rewrite P1, P2, <- Q. apply pos_le; lia. }
  unfold advance_start_by. rewrite C1, C2. split; [|split]; simpl.
  - repeat split; simpl; auto; try lia. 
  - unfold k. simpl. now rewrite skipn_slice.
  - reflexivity.
Qed.
Lemma sim_end s s' n n' : sim s s' -> n <= length (k s) -> n' = length (w (firstn n (k s))) ->
  sim (advance_end_by n s) (advance_end_by n' s') /\ k (advance_end_by n s) = firstn n (k s).
Proof.
  intros H L ->. pose proof (k_length _ _ H) as K. pose proof H as (E1 & E2 & H1 & H2 & P1 & P2 & D).
  assert (Q : pos (sp_start s + n) = pos (sp_start s) + length (w (firstn n (k s)))).
  { rewrite pos_add by lia. do 3 f_equal. unfold k, slice. rewrite firstn_firstn, Nat.min_l by lia. reflexivity. }
  unfold advance_end_by. split; simpl.
  - repeat split; simpl; auto; try lia.
  - unfold k, slice. simpl. rewrite firstn_firstn. f_equal. lia.
Qed.
Lemma sim_eqb s s' t t' : sim s s' -> sim t t' -> span_eqb s' t' = span_eqb s t.
Proof.
  intros (E1 & E2 & H1 & H2 & P1 & P2 & D) (F1 & F2 & G1 & G2 & Q1 & Q2 & D2). unfold span_eqb.
  rewrite E1, E2, F1, F2, P1, P2, Q1, Q2, D, D2, !str_eqb_refl, !pos_eqb by lia. reflexivity.
Qed.
Lemma sim_depth d s s' : sim s s' -> sim (with_depth d s) (with_depth d s').
Proof. intros (E1 & E2 & H1 & H2 & P1 & P2 & D). repeat split; auto. Qed.

(** Within a line the two texts are the same. *)
Definition simL (s s' : span) : Prop := sim s s' /\ no_nl (remaining s).
Lemma simL_rem s s' : simL s s' -> remaining s' = remaining s /\ w (k s) = u (k s).
Proof. intros [H N]. destruct (sim_rem _ _ H) as [R1 R2]. rewrite R1 in N. rewrite R1, R2, w_plain; auto. Qed.
Lemma simL_len s s' : simL s s' -> remaining_len s' = remaining_len s.
Proof.
  intros H. destruct (sim_ok _ _ (proj1 H)) as [O1 O2]. rewrite !remaining_len_eq by auto. f_equal. now apply simL_rem.
Qed.
Lemma w_len_line n l : no_nl (firstn n (u l)) -> n <= length l -> length (w (firstn n l)) = n.
Proof. intros N L. rewrite w_plain by (rewrite <- u_firstn; auto). rewrite u_length, firstn_length. lia. Qed.

(** * Results *)

Definition rel {A} (R : A -> A -> Prop) (r r' : res A) : Prop :=
  match r, r' with
  | OutOfFuel, _ => True
  | _, OutOfFuel => True
  | Ok s a, Ok s' a' => sim s s' /\ R a a'
  | Err, Err => True
  | Panic, Panic => True
  | _, _ => False
  end.
Definition simp {A} (R : A -> A -> Prop) (p p' : parser A) : Prop := forall s s', sim s s' -> rel R (p s) (p' s').
Definition simpL {A} (R : A -> A -> Prop) (p p' : parser A) : Prop := forall s s', simL s s' -> rel R (p s) (p' s').
Definition any {A} (_ _ : A) : Prop := True.

Lemma rel_weaken {A} (R Q : A -> A -> Prop) r r' : rel R r r' -> (forall a a', R a a' -> Q a a') -> rel Q r r'.
Proof. destruct r, r'; simpl; intuition. Qed.
Lemma simp_weaken {A} (R Q : A -> A -> Prop) p p' : simp R p p' -> (forall a a', R a a' -> Q a a') -> simp Q p p'.
Proof. intros H W s s' Hs. eapply rel_weaken; [now apply H|exact W]. Qed.
Lemma simp_L {A} (R : A -> A -> Prop) p p' : simp R p p' -> simpL R p p'.
Proof. intros H s s' [Hs _]. now apply H. Qed.
Lemma rel_any {A} (R : A -> A -> Prop) r r' : rel R r r' -> rel any r r'.
Proof. intro H. eapply rel_weaken; [exact H|]. intros; exact I. Qed.
Lemma simp_any {A} (R : A -> A -> Prop) p p' : simp R p p' -> simp any p p'.
Proof. intro H. eapply simp_weaken; [exact H|]. intros; exact I. Qed.

Lemma rel_bind {A B} (R : A -> A -> Prop) (Q : B -> B -> Prop) r r' f f' :
  rel R r r' -> (forall s s' a a', sim s s' -> R a a' -> rel Q (f s a) (f' s' a')) ->
  rel Q (bind r f) (bind r' f').
Proof.
  destruct r, r'; simpl; try tauto; intros H W; auto.
  - destruct H. now apply W.
  - destruct (f s a); auto.
Qed.
(** The rest is not used: nothing need be known about it. *)
Definition relv {A} (R : A -> A -> Prop) (r r' : res A) : Prop :=
  match r, r' with
  | OutOfFuel, _ => True
  | _, OutOfFuel => True
  | Ok _ a, Ok _ a' => R a a'
  | Err, Err => True
  | Panic, Panic => True
  | _, _ => False
  end.
Lemma rel_bindv {A B} (R : A -> A -> Prop) (Q : B -> B -> Prop) r r' (f f' : A -> res B) :
  relv R r r' -> (forall a a', R a a' -> rel Q (f a) (f' a')) ->
  rel Q (bind r (fun _ a => f a)) (bind r' (fun _ a => f' a)).
Proof.
  destruct r, r'; simpl; try tauto; intros H W; auto. destruct (f a); auto.
Qed.
Lemma rel_relv {A} (R : A -> A -> Prop) r r' : rel R r r' -> relv R r r'.
Proof. destruct r, r'; simpl; tauto. Qed.

Lemma simp_bind {A B} (R : A -> A -> Prop) (Q : B -> B -> Prop) p p' (f f' : span -> A -> res B) :
  simp R p p' -> (forall s s' a a', sim s s' -> R a a' -> rel Q (f s a) (f' s' a')) ->
  simp Q (fun s => bind (p s) f) (fun s => bind (p' s) f').
Proof. intros H W s s' Hs. eapply rel_bind; [now apply H|exact W]. Qed.

Lemma rel_ok {A} (R : A -> A -> Prop) s s' a a' : sim s s' -> R a a' -> rel R (Ok s a) (Ok s' a').
Proof. simpl. auto. Qed.

(** * Combinators *)

Lemma simp_pmap {A B} (R : A -> A -> Prop) (Q : B -> B -> Prop) p p' (f f' : A -> B) :
  simp R p p' -> (forall a a', R a a' -> Q (f a) (f' a')) -> simp Q (pmap p f) (pmap p' f').
Proof. intros H W s s' Hs. eapply rel_bind; [now apply H|]. intros. apply rel_ok; auto. Qed.
Lemma simp_value {A B} (R : A -> A -> Prop) p p' (b : B) : simp R p p' -> simp eq (value b p) (value b p').
Proof. intro H. eapply simp_pmap; [exact H|]. reflexivity. Qed.
Definition opt_rel {A} (R : A -> A -> Prop) (o o' : option A) : Prop :=
  match o, o' with Some a, Some a' => R a a' | None, None => True | _, _ => False end.
Lemma rel_opt {A} (R : A -> A -> Prop) (p p' : parser A) s s' : sim s s' -> rel R (p s) (p' s') ->
  rel (opt_rel R) (opt p s) (opt p' s').
Proof. intros Hs H. unfold opt. destruct (p s), (p' s'); simpl in *; try tauto. Qed.
Lemma simp_opt {A} (R : A -> A -> Prop) p p' : simp R p p' -> simp (opt_rel R) (opt p) (opt p').
Proof. intros H s s' Hs. apply rel_opt; auto. Qed.
Lemma rel_peek {A} (R : A -> A -> Prop) (p p' : parser A) s s' : sim s s' -> rel R (p s) (p' s') -> rel R (peek p s) (peek p' s').
Proof. intros Hs H. eapply rel_bind; [exact H|]. intros. now apply rel_ok. Qed.
Lemma simp_peek {A} (R : A -> A -> Prop) p p' : simp R p p' -> simp R (peek p) (peek p').
Proof. intros H s s' Hs. apply rel_peek; auto. Qed.
Lemma rel_pnot {A} (R : A -> A -> Prop) (p p' : parser A) s s' : sim s s' -> rel R (p s) (p' s') ->
  rel any (pnot p s) (pnot p' s').
Proof. intros Hs H. unfold pnot. destruct (p s), (p' s'); simpl in *; try tauto. Qed.
Lemma simp_pnot {A} (R : A -> A -> Prop) p p' : simp R p p' -> simp any (pnot p) (pnot p').
Proof. intros H s s' Hs. eapply rel_pnot; auto. Qed.
Lemma simp_verify {A} (R : A -> A -> Prop) p p' (f f' : A -> bool) :
  simp R p p' -> (forall a a', R a a' -> f' a' = f a) -> simp R (verify p f) (verify p' f').
Proof.
  intros H W s s' Hs. eapply rel_bind; [now apply H|]. intros t t' a a' Ht Ha. rewrite (W _ _ Ha).
  destruct (f a); simpl; auto.
Qed.
Lemma simp_map_opt {A B} (R : A -> A -> Prop) (Q : B -> B -> Prop) p p' (f f' : A -> option B) :
  simp R p p' -> (forall a a', R a a' -> opt_rel Q (f a) (f' a')) -> simp Q (map_opt p f) (map_opt p' f').
Proof.
  intros H W s s' Hs. eapply rel_bind; [now apply H|]. intros t t' a a' Ht Ha. specialize (W _ _ Ha).
  destruct (f a), (f' a'); simpl in *; tauto.
Qed.
(** The inner parser works on a line. *)
Lemma simp_map_parser {B} (Q : B -> B -> Prop) p p' (q q' : parser B) :
  simp simL p p' -> simpL Q q q' -> simp Q (map_parser p q) (map_parser p' q').
Proof.
  intros H W s s' Hs. eapply rel_bind; [now apply H|]. intros t t' o o' Ht Ho.
  eapply rel_bind; [now apply W|]. intros. now apply rel_ok.
Qed.
Lemma rel_palt {A} (R : A -> A -> Prop) (p p' q q' : parser A) s s' :
  rel R (p s) (p' s') -> rel R (q s) (q' s') -> rel R (palt p q s) (palt p' q' s').
Proof.
  intros H1 H2. unfold palt. destruct (p s), (p' s'); simpl in *; try tauto. destruct (q s); exact I.
Qed.
Lemma simp_palt {A} (R : A -> A -> Prop) p p' q q' : simp R p p' -> simp R q q' -> simp R (palt p q) (palt p' q').
Proof. intros H1 H2 s s' Hs. apply rel_palt; auto. Qed.
Lemma simp_fail {A} (R : A -> A -> Prop) : simp R fail fail.
Proof. intros s s' _. exact I. Qed.
Lemma simp_alt {A} (R : A -> A -> Prop) ps ps' : Forall2 (simp R) ps ps' -> simp R (alt ps) (alt ps').
Proof. induction 1; [apply simp_fail|]. apply simp_palt; auto. Qed.
Definition pair_rel {A B} (R : A -> A -> Prop) (Q : B -> B -> Prop) (x y : A * B) : Prop := R (fst x) (fst y) /\ Q (snd x) (snd y).
Lemma simp_pair {A B} (R : A -> A -> Prop) (Q : B -> B -> Prop) p p' q q' :
  simp R p p' -> simp Q q q' -> simp (pair_rel R Q) (pair p q) (pair p' q').
Proof.
  intros H W s s' Hs. eapply rel_bind; [now apply H|]. intros t t' a a' Ht Ha. eapply rel_bind; [now apply W|].
  intros. apply rel_ok; auto. split; auto.
Qed.
Lemma simp_preceded {A B} (R : A -> A -> Prop) (Q : B -> B -> Prop) p p' (q q' : parser B) :
  simp R p p' -> simp Q q q' -> simp Q (preceded p q) (preceded p' q').
Proof. intros H W s s' Hs. eapply rel_bind; [now apply H|]. intros t t' a a' Ht Ha. now apply W. Qed.
Lemma simp_terminated {A B} (R : A -> A -> Prop) (Q : B -> B -> Prop) p p' (q q' : parser B) :
  simp R p p' -> simp Q q q' -> simp R (terminated p q) (terminated p' q').
Proof.
  intros H W s s' Hs. eapply rel_bind; [now apply H|]. intros t t' a a' Ht Ha. eapply rel_bind; [now apply W|].
  intros. now apply rel_ok.
Qed.
Lemma simp_delimited {A B C} (R : A -> A -> Prop) (Q : B -> B -> Prop) (S : C -> C -> Prop) p p' q q' r r' :
  simp R p p' -> simp Q q q' -> simp S r r' -> simp Q (delimited p q r) (delimited p' q' r').
Proof. intros. eapply simp_preceded; eauto. eapply simp_terminated; eauto. Qed.
Lemma simp_separated_pair {A B C} (R : A -> A -> Prop) (Q : B -> B -> Prop) (S : C -> C -> Prop) p p' q q' r r' :
  simp R p p' -> simp Q q q' -> simp S r r' -> simp (pair_rel R S) (separated_pair p q r) (separated_pair p' q' r').
Proof.
  intros H W V s s' Hs. eapply rel_bind; [now apply H|]. intros t t' a a' Ht Ha. eapply rel_bind; [now apply W|].
  intros. eapply rel_bind; [now apply V|]. intros. apply rel_ok; auto. split; auto.
Qed.
Lemma simp_recognize {A} (R : A -> A -> Prop) (p p' : parser A) : simp R p p' -> simp sim (recognize p) (recognize p').
Proof.
  intros H s s' Hs. eapply rel_bind; [now apply H|]. intros t t' a a' Ht Ha.
  destruct Hs as (E1 & E2 & H1 & H2 & P1 & P2 & D). pose proof Ht as (F1 & F2 & G1 & G2 & Q1 & Q2 & D2).
  rewrite P1, Q1, pos_ltb by lia. destruct (sp_start t <? sp_start s) eqn:C; [exact I|]. apply Nat.ltb_ge in C.
  apply rel_ok; auto. unfold advance_end_by. repeat split; simpl; auto; try lia.
  assert (pos (sp_start s) <= pos (sp_start t)) by (apply pos_le; lia).
  rewrite P1. replace (sp_start s + (sp_start t - sp_start s)) with (sp_start t) by lia. lia.
Qed.
Lemma rel_many0 {A} (R : A -> A -> Prop) p p' : simp R p p' -> forall f f' s s', sim s s' ->
  rel (Forall2 R) (many0_fuel f p s) (many0_fuel f' p' s').
Proof.
  intro H. induction f as [|f IH]; intros f' s s' Hs; [exact I|]. destruct f' as [|f'].
  { destruct (many0_fuel (S f) p s); exact I. }
  cbn [many0_fuel]. pose proof (H _ _ Hs) as Hp. destruct (p s) as [t a| | |], (p' s') as [t' a'| | |]; simpl in Hp; try contradiction; try exact I.
  - destruct Hp as [Ht Ha]. rewrite (sim_eqb _ _ _ _ Ht Hs). destruct (span_eqb t s); [exact I|].
    eapply rel_bind; [now apply IH|]. intros. apply rel_ok; auto.
  - destruct (span_eqb t s); [exact I|]. destruct (bind _ _); exact I.
  - simpl. auto.
Qed.
Lemma simp_many0 {A} (R : A -> A -> Prop) p p' : simp R p p' -> simp (Forall2 R) (many0 p) (many0 p').
Proof. intros H s s' Hs. apply rel_many0; auto. Qed.
Lemma simp_many1 {A} (R : A -> A -> Prop) p p' : simp R p p' -> simp (Forall2 R) (many1 p) (many1 p').
Proof.
  intros H s s' Hs. eapply rel_bind; [now apply H|]. intros. eapply rel_bind; [eapply simp_many0; eauto|].
  intros. apply rel_ok; auto.
Qed.
Lemma rel_sep {A B} (R : A -> A -> Prop) (Q : B -> B -> Prop) sep sep' p p' : simp Q sep sep' -> simp R p p' -> forall f f' s s', sim s s' ->
  rel (Forall2 R) (sep_loop f sep p s) (sep_loop f' sep' p' s').
Proof.
  intros W H. induction f as [|f IH]; intros f' s s' Hs; [exact I|]. destruct f' as [|f'].
  { destruct (sep_loop (S f) sep p s); exact I. }
  cbn [sep_loop]. pose proof (W _ _ Hs) as Hp. destruct (sep s) as [t a| | |], (sep' s') as [t' a'| | |]; simpl in Hp; try contradiction; try exact I.
  - destruct Hp as [Ht Ha]. rewrite (sim_eqb _ _ _ _ Ht Hs). destruct (span_eqb t s); [exact I|].
    pose proof (H _ _ Ht) as Hp. destruct (p t) as [v b| | |], (p' t') as [v' b'| | |]; simpl in Hp; try contradiction; try exact I.
    + eapply rel_bind; [apply IH; tauto|]. intros. apply rel_ok; auto. constructor; tauto.
    + destruct (bind _ _); exact I.
    + simpl. auto.
  - destruct (span_eqb t s); [exact I|]. destruct (p t); try exact I. destruct (bind _ _); exact I.
  - simpl. auto.
Qed.
Lemma simp_sep1 {A B} (R : A -> A -> Prop) (Q : B -> B -> Prop) sep sep' p p' : simp Q sep sep' -> simp R p p' ->
  simp (Forall2 R) (separated_list1 sep p) (separated_list1 sep' p').
Proof.
  intros W H s s' Hs. eapply rel_bind; [now apply H|]. intros. eapply rel_bind; [eapply rel_sep; eauto|].
  intros. apply rel_ok; auto.
Qed.
Lemma simp_sep0 {A B} (R : A -> A -> Prop) (Q : B -> B -> Prop) sep sep' p p' : simp Q sep sep' -> simp R p p' ->
  simp (Forall2 R) (separated_list0 sep p) (separated_list0 sep' p').
Proof.
  intros W H s s' Hs. unfold separated_list0. pose proof (H _ _ Hs) as Hp.
  destruct (p s) as [t a| | |], (p' s') as [t' a'| | |]; simpl in Hp; try contradiction; try exact I.
  - eapply rel_bind; [eapply rel_sep; eauto; tauto|]. intros. apply rel_ok; auto. constructor; tauto.
  - destruct (bind _ _); exact I.
  - simpl. auto.
Qed.
Lemma simp_all_consuming {A} (R : A -> A -> Prop) p p' : simp R p p' -> simp R (all_consuming p) (all_consuming p').
Proof.
  intros H s s' Hs. eapply rel_bind; [now apply H|]. intros t t' a a' Ht Ha. rewrite (sim_empty _ _ Ht).
  destruct (_ =? 0); simpl; auto.
Qed.
Lemma simp_deeper {A} (R : A -> A -> Prop) p p' : simp R p p' -> simp R (deeper p) (deeper p').
Proof.
  intros H s s' Hs. pose proof Hs as (_ & _ & _ & _ & _ & _ & D). eapply rel_bind.
  - apply H. unfold with_deeper. rewrite D. now apply sim_depth.
  - intros t t' a a' Ht Ha. apply rel_ok; auto. pose proof Ht as (_ & _ & _ & _ & _ & _ & D2). unfold with_shallower. rewrite D2.
    now apply sim_depth.
Qed.
Lemma simpL_deeper {A} (R : A -> A -> Prop) p p' : simpL R p p' -> simpL R (deeper p) (deeper p').
Proof.
  intros H s s' [Hs N]. pose proof Hs as (_ & _ & _ & _ & _ & _ & D). eapply rel_bind.
  - apply H. unfold with_deeper. rewrite D. split; [now apply sim_depth|exact N].
  - intros t t' a a' Ht Ha. apply rel_ok; auto. pose proof Ht as (_ & _ & _ & _ & _ & _ & D2). unfold with_shallower. rewrite D2.
    now apply sim_depth.
Qed.

(** Related values found at related places. *)
Definition RL {A} (R : A -> A -> Prop) (x x' : located A) : Prop :=
  R (l_val x) (l_val x') /\ r_off (l_reg x) <= length toks /\ r_off (l_reg x') = pos (r_off (l_reg x)).
Lemma wl_start n s : sp_start (with_length n s) = sp_start s.
Proof. unfold with_length. now destruct (n <? _). Qed.
Lemma rel_located {A} (R : A -> A -> Prop) (p p' : parser A) s s' : sim s s' -> rel R (p s) (p' s') ->
  rel (RL R) (located_p p s) (located_p p' s').
Proof.
  intros Hs H. unfold located_p, locate, capture.
  destruct (p s) as [t a| | |], (p' s') as [t' a'| | |]; simpl in *; try tauto.
  - destruct H as [Ht Ha]. destruct Hs as (E1 & E2 & H1 & H2 & P1 & P2 & D). pose proof Ht as (F1 & F2 & G1 & G2 & Q1 & Q2 & D2).
    rewrite P1, Q1, pos_ltb by lia. destruct (sp_start t <? sp_start s) eqn:C; [exact I|]. simpl. split; auto.
    repeat split; simpl; auto; rewrite !wl_start; auto. lia.
  - destruct (_ <? _); exact I.
Qed.
Lemma simp_located {A} (R : A -> A -> Prop) p p' : simp R p p' -> simp (RL R) (located_p p) (located_p p').
Proof. intros H s s' Hs. apply rel_located; auto. Qed.
Lemma RL_lmap {A B} (R : A -> A -> Prop) (Q : B -> B -> Prop) (f f' : A -> B) x x' :
  RL R x x' -> (forall a a', R a a' -> Q (f a) (f' a')) -> RL Q (lmap f x) (lmap f' x').
Proof. intros (H1 & H2 & H3) W. repeat split; simpl; auto. Qed.
Lemma simp_lmap {A B} (R : A -> A -> Prop) (Q : B -> B -> Prop) p p' (f f' : A -> B) :
  simp (RL R) p p' -> (forall a a', R a a' -> Q (f a) (f' a')) -> simp (RL Q) (pmap p (lmap f)) (pmap p' (lmap f')).
Proof. intros H W. eapply simp_pmap; [exact H|]. intros. eapply RL_lmap; eauto. Qed.

(** * Primitives *)

Lemma simp_ret {A} (R : A -> A -> Prop) a a' : R a a' -> simp R (ret a) (ret a').
Proof. intros H s s' Hs. now apply rel_ok. Qed.

Lemma ok_split_any s s' n n' : sim s s' -> n <= length (k s) -> n' = length (w (firstn n (k s))) ->
  rel sim (ok_split n s) (ok_split n' s').
Proof.
  intros Hs L Q. split; [now apply (sim_adv s s' n n')|now apply (sim_end s s' n n')].
Qed.
Lemma ok_split_line s s' n : sim s s' -> n <= length (k s) -> no_nl (firstn n (remaining s)) ->
  rel simL (ok_split n s) (ok_split n s').
Proof.
  intros Hs L N. destruct (sim_rem _ _ Hs) as [R1 R2]. rewrite R1 in N.
  assert (Q : n = length (w (firstn n (k s)))) by (symmetry; apply w_len_line; auto).
  split; [now apply sim_adv|]. destruct (sim_end s s' n n Hs L Q) as [A B]. split; [exact A|].
  destruct (sim_rem _ _ A) as [-> _]. rewrite B, <- u_firstn. exact N.
Qed.
Lemma adv_line s s' n : sim s s' -> n <= length (k s) -> no_nl (firstn n (remaining s)) ->
  sim (advance_start_by n s) (advance_start_by n s').
Proof. intros Hs L N. now destruct (ok_split_line s s' n Hs L N). Qed.

Lemma simL_sim : forall o o', simL o o' -> sim o o'.
Proof. now intros o o' []. Qed.
Definition strR (o o' : span) : Prop := remaining o' = remaining o.

Lemma simp_tag t : clean t -> simp simL (tag t) (tag t).
Proof.
  intros C s s' Hs. unfold tag. destruct (sim_rem _ _ Hs) as [R1 R2]. rewrite R1, R2, sw_same by (auto using k_nocr).
  destruct (starts_with t (u (k s))) eqn:S; [|exact I]. pose proof (sw_prefix _ _ S) as P. apply ok_split_line; auto.
  - apply starts_with_spec in S as [r S]. rewrite <- u_length, S, app_length. lia.
  - rewrite R1, P. apply C.
Qed.
Lemma head_step s s' : sim s s' -> 
  (remaining s = [] /\ remaining s' = []) \/
  (exists b r r', remaining s = b :: r /\ remaining s' = b :: r' /\ b <> b_nl /\ b <> b_cr /\ sim (advance_start_by 1 s) (advance_start_by 1 s')) \/
  (exists r r', remaining s = b_nl :: r /\ remaining s' = b_nl :: r' /\ sim (advance_start_by 1 s) (advance_start_by 1 s')) \/
  (exists r r', remaining s = b_nl :: r /\ remaining s' = b_cr :: b_nl :: r' /\ sim (advance_start_by 1 s) (advance_start_by 2 s')).
Proof.
  intro Hs. destruct (sim_rem _ _ Hs) as [R1 R2]. rewrite R1, R2.
  destruct (head_cases (k s) (k_nocr s)) as [Q|[(t & r & Q & N1 & N2 & E1 & E2)|(t & r & Q & N1 & E1 & E2)]].
  - left. rewrite Q. auto.
  - right. left. exists (fst t), (u r), (w r). split; auto. split; auto. split; auto. split; auto.
    apply adv_line; auto; [rewrite Q; simpl; lia|]. rewrite R1, E1. simpl. intros [X|[]]. auto.
  - right. right. destruct E2 as [E2|E2]; [left|right]; exists (u r), (w r); split; auto; split; auto;
    apply sim_adv; auto; rewrite Q; simpl; try lia;
      assert (O : length (w (k s)) = length (one t) + length (w r)) by (rewrite Q; unfold w; cbn [flat_map]; apply app_length);
      rewrite E2 in O; simpl in O; rewrite app_nil_r; lia.
Qed.
Lemma simp_pchar c : c <> b_nl -> c <> b_cr -> simp eq (pchar c) (pchar c).
Proof.
  intros C1 C2 s s' Hs. unfold pchar.
  destruct (head_step _ _ Hs) as [[-> ->]|[(b & r & r' & -> & -> & N1 & N2 & A)|[(r & r' & -> & -> & A)|(r & r' & -> & -> & A)]]]; try exact I.
  - destruct (beqb b c); [|exact I]. now apply rel_ok.
  - destruct (beqb b_nl c) eqn:X; [|exact I]. apply beqb_eq in X. congruence.
  - assert (beqb b_nl c = false) as -> by (apply beqb_neq; congruence).
    assert (beqb b_cr c = false) as -> by (apply beqb_neq; congruence). exact I.
Qed.
Lemma simp_one_of cs : clean cs -> simp eq (one_of cs) (one_of cs).
Proof.
  intros [C1 C2] s s' Hs. unfold one_of.
  assert (X : forall b, ~ In b cs -> existsb (beqb b) cs = false).
  { intros b N. apply not_true_is_false. intro X. apply existsb_exists in X as (y & Y1 & Y2). apply beqb_eq in Y2. now subst. }
  destruct (head_step _ _ Hs) as [[-> ->]|[(b & r & r' & -> & -> & N1 & N2 & A)|[(r & r' & -> & -> & A)|(r & r' & -> & -> & A)]]]; try exact I.
  - destruct (existsb (beqb b) cs); [|exact I]. now apply rel_ok.
  - rewrite X by auto. exact I.
  - rewrite !X by auto. exact I.
Qed.
Lemma simp_take_while0 p : p b_nl = false -> p b_cr = false -> simp simL (take_while0 p) (take_while0 p).
Proof.
  intros P1 P2 s s' Hs. unfold take_while0. destruct (sim_rem _ _ Hs) as [R1 R2]. rewrite R2, cw_same, <- R1 by auto using k_nocr.
  apply ok_split_line; auto.
  - rewrite R1, <- u_length. apply count_while_le.
  - now apply cw_no_nl.
Qed.
Lemma simp_take_while1 p : p b_nl = false -> p b_cr = false -> simp simL (take_while1 p) (take_while1 p).
Proof.
  intros P1 P2 s s' Hs. unfold take_while1. cbv zeta. destruct (sim_rem _ _ Hs) as [R1 R2]. rewrite R2, cw_same, <- R1 by auto using k_nocr.
  destruct (_ =? 0); [exact I|]. apply ok_split_line; auto.
  - rewrite R1, <- u_length. apply count_while_le.
  - now apply cw_no_nl.
Qed.
Lemma simp_space0 : simp simL space0 space0.
Proof. now apply simp_take_while0. Qed.
Lemma simp_space1 : simp simL space1 space1.
Proof. now apply simp_take_while1. Qed.
Lemma simp_digit1 : simp simL digit1 digit1.
Proof. now apply simp_take_while1. Qed.
Lemma simp_line_ending : simp any line_ending line_ending.
Proof.
  intros s s' Hs. unfold line_ending, palt, tag.
  destruct (head_step _ _ Hs) as [[-> ->]|[(b & r & r' & -> & -> & N1 & N2 & A)|[(r & r' & -> & -> & A)|(r & r' & -> & -> & A)]]]; try exact I.
  - unfold nl_str, crlf_str. cbn [starts_with]. apply beqb_neq in N1, N2.
    assert (beqb b_nl b = false) as -> by (apply beqb_neq; apply beqb_neq in N1; congruence).
    assert (beqb b_cr b = false) as -> by (apply beqb_neq; apply beqb_neq in N2; congruence). exact I.
  - simpl. split; [exact A|exact I].
  - simpl. split; [exact A|exact I].
Qed.
Lemma simp_eoi : simp any end_of_line_or_input end_of_line_or_input.
Proof.
  intros s s' Hs. unfold end_of_line_or_input, sp_is_empty. rewrite (sim_empty _ _ Hs). destruct (_ =? 0).
  - simpl. split; [exact Hs|exact I].
  - eapply rel_bind; [now apply simp_line_ending|]. intros. now apply rel_ok.
Qed.
Lemma simp_multispace : simp any single_multispace single_multispace.
Proof.
  eapply simp_pmap with (R := any); [|reflexivity]. intros s s' Hs. unfold alt, palt, crlf, tag, fail.
  destruct (head_step _ _ Hs) as [[-> ->]|[(b & r & r' & -> & -> & N1 & N2 & A)|[(r & r' & -> & -> & A)|(r & r' & -> & -> & A)]]]; try exact I.
  - unfold nl_str, crlf_str. cbn [starts_with].
    assert (beqb b_nl b = false) as -> by (apply beqb_neq; congruence).
    assert (beqb b_cr b = false) as -> by (apply beqb_neq; congruence). cbn [andb].
    rewrite !andb_true_r. destruct (beqb b_tab b); [split; [exact A|exact I]|]. destruct (beqb b_sp b); [split; [exact A|exact I]|]. exact I.
  - simpl. split; [exact A|exact I].
  - simpl. split; [exact A|exact I].
Qed.

(** What stands before. *)
Lemma before_same {A} s s' (f : byte -> A) (d : A) : sim s s' ->
  match rev (consumed s') with [] => d | c :: _ => f c end = match rev (consumed s) with [] => d | c :: _ => f c end.
Proof.
  intro Hs. destruct (sim_con _ _ Hs) as [-> ->].
  destruct (last_same (firstn (sp_start s) toks)) as [[-> ->]|(a & b & c & -> & ->)]; auto using nocr_firstn, toks_nocr.
  now rewrite !rev_app_distr.
Qed.
Lemma simp_whole_word : simp simL whole_word whole_word.
Proof.
  intros s s' Hs. unfold whole_word. cbv zeta. rewrite (before_same s s' is_ascii_ws true Hs).
  destruct (negb _); [exact I|]. now apply simp_take_while1.
Qed.
Lemma simp_bol : simp any beginning_of_line beginning_of_line.
Proof.
  intros s s' Hs. unfold beginning_of_line.
  pose proof (before_same s s' is_nl true Hs) as B.
  destruct (rev (consumed s)) as [|c l], (rev (consumed s')) as [|c' l']; simpl in *; try (split; [exact Hs|exact I]).
  - rewrite B. split; [exact Hs|exact I].
  - rewrite <- B. split; [exact Hs|exact I].
  - rewrite B. destruct (is_nl c); [split; [exact Hs|exact I]|exact I].
Qed.

Lemma stop_line s s' pats n : sim s s' -> (forall p, In p pats -> clean p) -> first_stop pats (remaining s) n ->
  first_stop pats (remaining s') n /\ no_nl (firstn n (remaining s)) /\ n <= length (k s).
Proof.
  intros Hs C F. destruct (sim_rem _ _ Hs) as [R1 R2]. rewrite R1 in *. rewrite R2. apply first_stop_same; auto using k_nocr.
Qed.
Lemma simp_tlu p : clean p -> p <> [] -> length p <= 2 -> simp simL (take_line_until p) (take_line_until p).
Proof.
  intros C N L s s' Hs. unfold take_line_until.
  destruct (stop_line s s' [p] (tlu_pos p (remaining s)) Hs) as (F & NN & LE); [intros x [<-|[]]; auto|now apply tlu_first|].
  rewrite (first_stop_unique _ _ _ _ (tlu_first p (remaining s') N L) F). now apply ok_split_line.
Qed.
Lemma simp_tlu2 p q : clean p -> p <> [] -> clean q -> q <> [] ->
  simp simL (take_line_until_one_of_two p q) (take_line_until_one_of_two p q).
Proof.
  intros C N D M s s' Hs. unfold take_line_until_one_of_two.
  destruct (stop_line s s' [p; q] (tlu2_pos p q (remaining s)) Hs) as (F & NN & LE); [intros x [<-|[<-|[]]]; auto|now apply tlu2_first|].
  rewrite (first_stop_unique _ _ _ _ (tlu2_first p q (remaining s') N M) F). now apply ok_split_line.
Qed.
Lemma simp_tlu3 p q r : clean p -> p <> [] -> clean q -> q <> [] -> clean r -> r <> [] ->
  simp simL (take_line_until_one_of_three p q r) (take_line_until_one_of_three p q r).
Proof.
  intros C N D M G K s s' Hs. unfold take_line_until_one_of_three.
  destruct (stop_line s s' [p; q; r] (tlu3_pos p q r (remaining s)) Hs) as (F & NN & LE); [intros x [<-|[<-|[<-|[]]]]; auto|now apply tlu3_first|].
  rewrite (first_stop_unique _ _ _ _ (tlu3_first p q r (remaining s') N M K) F). now apply ok_split_line.
Qed.
Lemma ne_same o o' : simL o o' -> non_empty o' = non_empty o.
Proof. intro H. unfold non_empty, sp_is_empty. now rewrite (sim_empty _ _ (proj1 H)). Qed.
Lemma simp_tlu1_ p : simp simL p p -> simp simL (verify p non_empty) (verify p non_empty).
Proof. intro H. apply simp_verify; auto. exact ne_same. Qed.
Lemma takes_split s n r : span_ok s -> takes s n r -> r = ok_split n s.
Proof. intros O T. destruct T as [L ->]. destruct (ok_split_takes n s O L) as [_ ->]. reflexivity. Qed.
Lemma simp_to_eol : simp simL take_until_end_of_line_or_input take_until_end_of_line_or_input.
Proof.
  intros s s' Hs. destruct (sim_ok _ _ Hs) as [O1 O2].
  rewrite (takes_split _ _ _ O1 (take_until_eol_eq s O1)), (takes_split _ _ _ O2 (take_until_eol_eq s' O2)).
  destruct (stop_line s s' [] (eol_stop (remaining s)) Hs) as (F & NN & LE); [intros x []|apply eol_first|].
  rewrite (first_stop_unique _ _ _ _ (eol_first (remaining s')) F). now apply ok_split_line.
Qed.
Lemma simp_not_line_ending : simp simL not_line_ending not_line_ending.
Proof.
  intros s s' Hs. destruct (sim_ok _ _ Hs) as [O1 O2]. destruct (sim_rem _ _ Hs) as [R1 R2].
  assert (Q : forall t l, span_ok t -> remaining t = l -> (forall n, first_stop [] l n -> ~ In b_cr (firstn n l)) ->
     (forall n, first_stop [] l n -> starts_with [b_cr] (skipn n l) = true -> starts_with crlf_str (skipn n l) = true) ->
     not_line_ending t = ok_split (eol_stop l) t).
  { intros t l O <- N1 N2. pose proof (eol_first (remaining t)) as F. pose proof F as (F1 & F2 & F3). unfold not_line_ending.
    destruct (find_pos (fun b => beqb b b_cr || beqb b b_nl) (remaining t)) as [i|] eqn:X.
    - apply find_pos_some in X as [[x [X1 X2]] X3].
      assert (i = eol_stop (remaining t)) as ->.
      { destruct (Nat.lt_trichotomy i (eol_stop (remaining t))) as [C|[C|C]]; auto; exfalso.
        - apply orb_true_iff in X2 as [X2|X2]; apply beqb_eq in X2; subst x.
          + apply (N1 _ F). eapply nth_error_In. rewrite nth_error_firstn; eauto.
          + destruct (F2 i C) as [F4 _]. apply F4. left. apply nth_error_split in X1 as (a & b & X1 & X4). exists a, b. auto.
        - assert (exists y, nth_error (remaining t) (eol_stop (remaining t)) = Some y /\ (beqb y b_cr || beqb y b_nl) = true) as (y & Y1 & Y2).
          { destruct F3 as [F3|[[(a & b & F3 & F4)|(a & b & F3 & F4)]|(p & [] & _)]].
            - assert (i < length (remaining t)) by (apply nth_error_Some; congruence). lia.
            - exists b_nl. split; [|reflexivity]. rewrite F3 at 1. rewrite <- F4, nth_error_app2, Nat.sub_diag by lia. reflexivity.
            - exists b_cr. split; [|reflexivity]. rewrite F3 at 1. rewrite <- F4, nth_error_app2, Nat.sub_diag by lia. reflexivity. }
          rewrite Forall_forall in X3. rewrite X3 in Y2; [discriminate|]. eapply nth_error_In. rewrite nth_error_firstn; eauto. }
      cbv zeta. destruct (starts_with [b_cr] (skipn (eol_stop (remaining t)) (remaining t))) eqn:C; [|reflexivity].
      rewrite (N2 _ F C). reflexivity.
    - apply find_pos_none in X. rewrite Forall_forall in X. f_equal. rewrite remaining_len_eq by auto.
      destruct F3 as [F3|[F3|(p & [] & _)]]; auto. exfalso.
      destruct F3 as [(a & b & F3 & _)|(a & b & F3 & _)].
      + enough (Z : beqb b_nl b_cr || beqb b_nl b_nl = false) by discriminate Z. apply X. rewrite F3. apply in_or_app. right. now left.
      + enough (Z : beqb b_cr b_cr || beqb b_cr b_nl = false) by discriminate Z. apply X. rewrite F3. apply in_or_app. right. now left. }
  destruct (stop_line s s' [] (eol_stop (remaining s)) Hs) as (F & NN & LE); [intros x []|apply eol_first|].
  assert (U : forall n, first_stop [] (remaining s') n -> n = eol_stop (remaining s)) by (intros n Hn; exact (first_stop_unique _ _ _ _ Hn F)).
  rewrite (Q s _ O1 eq_refl), (Q s' _ O2 eq_refl).
  - rewrite (U _ (eol_first (remaining s'))). now apply ok_split_line.
  - intros n Hn. rewrite (U n Hn). rewrite R2, w_first, <- R1; auto.
    + intro X. apply (k_nocr s). rewrite <- R1. rewrite <- (firstn_skipn (eol_stop (remaining s)) (remaining s)). apply in_or_app. now left.
    + now rewrite <- R1.
  - intros n Hn C. rewrite (U n Hn) in *. rewrite R2, w_skip in *; try (rewrite <- R1; exact NN); auto.
    destruct (head_cases (skipn (eol_stop (remaining s)) (k s))) as [Z|[(t & r & Z & N1 & N2 & E1 & E2)|(t & r & Z & N1 & E1 & E2)]]; auto using nocr_skipn, k_nocr.
    + rewrite Z in C. discriminate.
    + rewrite E2 in C. cbn [starts_with] in C. rewrite andb_true_r in C. apply beqb_eq in C. congruence.
    + destruct E2 as [E2|E2]; rewrite E2 in *; [discriminate|reflexivity].
  - intros n Hn X. apply (k_nocr s). rewrite <- R1. rewrite <- (firstn_skipn n (remaining s)). apply in_or_app. now left.
  - intros n Hn C. exfalso. apply (k_nocr s). rewrite <- R1. rewrite <- (firstn_skipn n (remaining s)). apply in_or_app. right.
    destruct (skipn n (remaining s)) as [|y l]; [discriminate|]. cbn [starts_with] in C. rewrite andb_true_r in C. apply beqb_eq in C. now left.
Qed.

Lemma simp_take_until p : clean p -> p <> [] -> simp sim (take_until p) (take_until p).
Proof.
  intros C N s s' Hs. unfold take_until. destruct (sim_rem _ _ Hs) as [R1 R2]. rewrite !offset_first by auto.
  rewrite R1, R2, first_at_same by auto using k_nocr. destruct (first_at p (u (k s))) as [n|] eqn:F; [|exact I]. simpl option_map. cbv iota.
  apply ok_split_any; auto. pose proof (first_at_spec p (u (k s)) N) as Q. rewrite F in Q. destruct Q as [Q _].
  apply Nat.nlt_ge. intro L. unfold occ in Q. rewrite skipn_all2 in Q by (rewrite u_length; lia). destruct p; [congruence|discriminate].
Qed.
Lemma simp_not_contains p q : simp simL q q -> simp simL (not_contains p q) (not_contains p q).
Proof.
  intros H s s' Hs. eapply rel_bind; [now apply H|]. intros t t' o o' Ht Ho. unfold pnot, offset.
  rewrite (proj1 (simL_rem _ _ Ho)). destruct (offset_of p (remaining o)); simpl; auto.
Qed.

(** Cutting a piece without newlines off the right text. *)
Lemma w_piece a : no_nl a -> (forall x, a <> x ++ [b_cr]) -> forall l r, nocr l -> w l = a ++ r ->
  exists l2, u l = a ++ u l2 /\ w l2 = r.
Proof.
  induction a as [|x a IH]; intros N NC l r H W.
  - exists l. auto.
  - destruct (head_cases l H) as [->|[(t & q & -> & N1 & N2 & E1 & E2)|(t & q & -> & N1 & E1 & E2)]].
    + discriminate.
    + rewrite E2 in W. injection W as <- W. destruct (IH) with (l := q) (r := r) as (l2 & L1 & L2); auto.
      * intro X. apply N. now right.
      * intros y Y. apply (NC (fst t :: y)). now rewrite Y.
      * now apply (nocr_app [t]) in H.
      * exists l2. rewrite E1, L1. auto.
    + exfalso. destruct E2 as [E2|E2]; rewrite E2 in W.
      * injection W as <- W. apply N. now left.
      * injection W as <- W. destruct a as [|y a]; [now apply (NC [])|]. injection W as <- W. apply N. right. now left.
Qed.
Lemma app_len_eq (a b c d : str) : a ++ b = c ++ d -> length a = length c -> a = c /\ b = d.
Proof.
  revert c. induction a as [|x a IH]; intros [|y c] H L; simpl in *; try discriminate; auto. injection H as -> H.
  destruct (IH c H) as [-> ->]; auto.
Qed.
Lemma w_u_piece a : no_nl a -> forall l r, u l = a ++ r -> exists l2, w l = a ++ w l2 /\ u l2 = r.
Proof.
  intros N l r H. exists (skipn (length a) l). assert (F : firstn (length a) (u l) = a).
  { rewrite H, firstn_app, Nat.sub_diag, firstn_all. apply app_nil_r. }
  split.
  - rewrite (w_cut (length a) l).
    + now rewrite F.
    + now rewrite F.
    + rewrite <- u_length, H, app_length. lia.
  - rewrite <- u_skipn, H, skipn_app, skipn_all, Nat.sub_diag. reflexivity.
Qed.
Lemma simp_surround L R : clean L -> clean R -> R <> [] -> simp simL (surround_in_line1 L R) (surround_in_line1 L R).
Proof.
  intros [CL1 CL2] [CR1 CR2] N s s' Hs. destruct (sim_ok _ _ Hs) as [O1 O2]. destruct (sim_rem _ _ Hs) as [R1 R2].
  pose proof (surround_spec L R s O1 N CR1) as A. pose proof (surround_spec L R s' O2 N CR1) as B.
  assert (NLCR : forall c, no_nl c -> no_nl (L ++ c ++ R)) by (intros c Hc; rewrite !no_nl_app; auto).
  assert (ECR : forall (c x : str), L ++ c ++ R <> x ++ [b_cr]).
  { intros c x X. apply CR2. destruct (exists_last N) as (R0 & y & ->). rewrite !app_assoc in X. apply app_inj_tail in X as [_ ->].
    apply in_or_app. right. now left. }
  destruct (surround_in_line1 L R s) as [t o| | |]; try contradiction.
  - destruct A as (c & r & A1 & A2 & A3 & A4 & A5 & A6).
    assert (W : exists l2, w (k s) = (L ++ c ++ R) ++ w l2 /\ u l2 = r).
    { apply w_u_piece; [now apply NLCR|]. rewrite <- R1, A1, <- !app_assoc. reflexivity. }
    destruct W as (l2 & W1 & W2). rewrite <- R2 in W1. rewrite <- !app_assoc in W1.
    destruct (surround_in_line1 L R s') as [t' o'| | |]; try contradiction; [|exfalso; now apply (B c (w l2))].
    destruct B as (c' & r' & B1 & B2 & B3 & B4 & B5 & B6).
    assert (c' = c) as ->.
    { rewrite W1 in B1. apply app_inv_head in B1.
      destruct (Nat.lt_trichotomy (length c) (length c')) as [C|[C|C]].
      - exfalso. apply (B4 (length c)); [split; auto; destruct c; [congruence|simpl; lia]|]. exists c, (w l2). auto.
      - apply app_len_eq in B1; auto. symmetry. apply B1.
      - exfalso. apply (A4 (length c')); [split; auto; destruct c'; [congruence|simpl; lia]|].
        assert (Z : exists z, c ++ R = c' ++ R ++ z).
        { exists (skipn (length (c' ++ R)) (c ++ R)). rewrite app_assoc.
          assert (F : c' ++ R = firstn (length (c' ++ R)) (c ++ R)).
          { transitivity (firstn (length (c' ++ R)) ((c ++ R) ++ w l2)).
            - rewrite <- app_assoc, B1, app_assoc, firstn_app, Nat.sub_diag, firstn_all. simpl. symmetry. apply app_nil_r.
            - rewrite firstn_app. replace (length (c' ++ R) - length (c ++ R)) with 0 by (rewrite !app_length; lia). simpl. apply app_nil_r. }
          rewrite F at 1. now rewrite firstn_skipn. }
        destruct Z as [z Z]. exists c', (z ++ r). split; auto. rewrite app_assoc, Z, <- !app_assoc. reflexivity. }
    destruct A5 as [A5 ->], B5 as [B5 ->]. destruct Hs as (E1 & E2 & H1 & H2 & P1 & P2 & D).
    assert (K : length (k s) = sp_end s - sp_start s) by (unfold k; now apply slice_length).
    assert (LL : length L + length c + length R <= length (k s)) by (rewrite <- u_length, <- R1; exact A5).
    assert (PX : forall n, n <= length L + length c + length R -> pos (sp_start s + n) = pos (sp_start s) + n).
    { intros n Hn. rewrite pos_add by lia. f_equal.
      replace (firstn n (skipn (sp_start s) toks)) with (firstn n (k s)) by (unfold k, slice; rewrite firstn_firstn, Nat.min_l by lia; reflexivity).
      apply w_len_line; [|lia]. rewrite <- R1, A1.
      replace (L ++ c ++ R ++ r) with ((L ++ c ++ R) ++ r) by now rewrite <- !app_assoc.
      rewrite firstn_app. replace (n - length (L ++ c ++ R)) with 0 by (rewrite !app_length; lia). simpl. rewrite app_nil_r.
      apply no_nl_firstn, NLCR. exact A3. }
    split; [|split].
    + repeat split; simpl; auto; try lia. rewrite P1, PX; lia.
    + subst o o'. repeat split; simpl; auto; try lia; rewrite P1, <- ?Nat.add_assoc, PX; lia.
    + subst o. rewrite A1 in *. unfold remaining. simpl.
      assert (Q : slice (sp_start s + length L) (sp_start s + length L + length c) (sp_inner s) = c).
      { transitivity (slice (length L) (length L + length c) (remaining s)).
        - unfold remaining. rewrite slice_slice by lia. f_equal; lia.
        - rewrite A1. unfold slice. rewrite skipn_app, skipn_all, Nat.sub_diag. simpl.
          replace (length L + length c - length L) with (length c) by lia. rewrite firstn_app, Nat.sub_diag, firstn_all. apply app_nil_r. }
      rewrite Q. exact A3.
  - destruct (surround_in_line1 L R s') as [t' o'| | |]; try contradiction; [|exact I]. exfalso.
    destruct B as (c & r & B1 & B2 & B3 & _). rewrite R2 in B1.
    destruct (w_piece (L ++ c ++ R) (NLCR c B3) (ECR c) (k s) r (k_nocr s)) as (l2 & W1 & W2); [now rewrite <- !app_assoc|].
    apply (A c (u l2)); auto. rewrite R1, W1, <- !app_assoc. reflexivity.
Qed.

Lemma simp_tlw1 c : c <> b_nl -> c <> b_cr -> simp simL (take_line_while1 (pchar c)) (take_line_while1 (pchar c)).
Proof.
  intros C1 C2. apply simp_tlu1_. intros s s' Hs. destruct (sim_ok _ _ Hs) as [O1 O2]. destruct (sim_rem _ _ Hs) as [R1 R2].
  assert (Q : forall t, span_ok t -> take_line_while (pchar c) t = ok_split (count_while (beqb c) (remaining t)) t).
  { intros t O. destruct (take_char_spec c t O C1 C2) as (n & T & r & X1 & X2). rewrite (takes_split _ _ _ O T). f_equal.
    rewrite X1. clear -X2. induction n as [|n IH]; simpl.
    - destruct r as [|x r]; [reflexivity|]. simpl. destruct (beqb c x) eqn:B; [|reflexivity]. apply beqb_eq in B. subst. exfalso. now apply (X2 r).
    - rewrite beqb_refl. now rewrite <- IH. }
  rewrite !Q by auto. apply (simp_take_while0 (beqb c)); auto; apply beqb_neq; auto.
Qed.
Lemma simp_blank : simp any blank_line blank_line.
Proof.
  eapply simp_preceded; [exact simp_bol|]. apply simp_palt.
  - eapply simp_terminated; [exact (simp_any _ _ _ simp_space1)|exact simp_eoi].
  - eapply simp_terminated; [exact (simp_any _ _ _ simp_space0)|exact simp_line_ending].
Qed.
Lemma simp_rest_of_line : simp simL rest_of_line rest_of_line.
Proof.
  intros s s' Hs. eapply rel_bind; [now apply simp_to_eol|]. intros t t' o o' Ht Ho. eapply rel_bind; [now apply simp_eoi|].
  intros. now apply rel_ok.
Qed.
Lemma simp_any_line : simp simL any_line any_line.
Proof.
  intros s s' Hs. eapply rel_bind; [now apply simp_bol|]. intros t t' o o' Ht Ho. eapply rel_bind; [now apply simp_rest_of_line|].
  intros. now apply rel_ok.
Qed.
Lemma simpL_cow : simpL eq cow_str cow_str.
Proof. intros s s' Hs. apply rel_ok; [apply Hs|]. symmetry. now apply simL_rem. Qed.
Lemma simpL_count : simpL eq count_remaining_bytes count_remaining_bytes.
Proof. intros s s' Hs. apply rel_ok; [apply Hs|]. symmetry. now apply simL_len. Qed.
End Twin.
