(** A run of a parser on a text beside its run on the text with a newline
    after it: spans, combinators, primitives. *)
From Verif Require Import Base ModelAst ModelTable ModelLink ModelInline ModelBlock ModelSpan ModelComb
  SpecDoc SpecTree SpecSpan ProofBase ProofBytes ProofSpan ProofLines1.
From Verif Require ProofMove2.

(** The text does not end a line, nor begin to. *)
Class tailed := { bod : str; bod_last : exists x b, bod = x ++ [b] /\ b <> b_nl /\ b <> b_cr }.

Section End.
Context {E : tailed}.
Notation len := (length bod).

Definition over (s s' : span) : Prop := sp_start s = len /\ sp_end s = len /\ sp_start s' = S len /\ sp_end s' = S len.
(** The same part of both texts; with [k], up to the end of each. *)
Definition sim (k : bool) (s s' : span) : Prop :=
  sp_inner s = bod /\ sp_inner s' = bod ++ [b_nl] /\ sp_start s <= sp_end s /\ sp_end s <= len /\ sp_depth s' = sp_depth s /\
  (over s s' \/ (sp_start s' = sp_start s /\ if k then sp_end s = len /\ sp_end s' = S len else sp_end s' = sp_end s)).
Definition good (l : str) : Prop := forall x, l <> x ++ [b_cr].

Lemma sim_ok k s s' : sim k s s' -> span_ok s /\ span_ok s'.
Proof.
  intros (E1 & E2 & H1 & H2 & D & C). unfold over in C. split; split; rewrite ?E1, ?E2, ?app_length; cbn [length]; try lia.
  - destruct C as [C|[C C2]]; [lia|destruct k; lia].
  - destruct C as [C|[C C2]]; [lia|destruct k; lia].
Qed.
Lemma good_skip n : n <= len -> good (skipn n bod).
Proof.
  intros N x H. destruct bod_last as (y & b & B & B1 & B2). rewrite B in *. rewrite app_length in N. cbn [length] in N.
  destruct (Nat.le_gt_cases n (length y)) as [L|L].
  - rewrite skipn_app in H. replace (n - length y) with 0 in H by lia. cbn [skipn] in H. apply app_inj_tail in H as [_ H]. congruence.
  - rewrite skipn_all2 in H by (rewrite app_length; cbn; lia). destruct x; discriminate.
Qed.
Lemma sim_rem k s s' : sim k s s' -> remaining s' = remaining s \/
  (k = true /\ sp_start s' = sp_start s /\ remaining s' = remaining s ++ [b_nl] /\ good (remaining s) /\ sp_end s = len /\ sp_end s' = S len).
Proof.
  intros (E1 & E2 & H1 & H2 & D & C). unfold remaining, slice. rewrite E1, E2. destruct C as [(O1 & O2 & O3 & O4)|[C C2]].
  - left. rewrite O1, O2, O3, O4, !Nat.sub_diag. reflexivity.
  - rewrite C. rewrite skipn_app. replace (sp_start s - len) with 0 by lia. cbn [skipn]. destruct k.
    + right. destruct C2 as [C2 C3]. rewrite C2, C3. split; [reflexivity|]. split; [reflexivity|].
      assert (A : firstn (len - sp_start s) (skipn (sp_start s) bod) = skipn (sp_start s) bod) by (apply firstn_all2; rewrite skipn_length; lia).
      rewrite A. split; [|split; [apply good_skip; lia|auto]]. apply firstn_all2. rewrite app_length, skipn_length. cbn [length]. lia.
    + left. rewrite C2. rewrite firstn_app, skipn_length. replace (sp_end s - sp_start s - (len - sp_start s)) with 0 by lia.
      cbn [firstn]. apply app_nil_r.
Qed.
Lemma rem_end k s s' : sim k s s' -> remaining_len s = sp_end s - sp_start s.
Proof. intros (_ & _ & H1 & _). unfold remaining_len. destruct (Nat.leb_spec (sp_start s) (sp_end s)); lia. Qed.
Lemma sim_len k s s' : sim k s s' -> remaining_len s' = remaining_len s \/ (k = true /\ remaining_len s' = S (remaining_len s) /\ remaining s' = remaining s ++ [b_nl]).
Proof.
  intro H. destruct (sim_ok _ _ _ H) as [O1 O2]. rewrite !remaining_len_eq by auto.
  destruct (sim_rem _ _ _ H) as [->|(K & _ & R & _)]; [auto|]. right. split; [exact K|]. split; [|exact R]. rewrite R, app_length. cbn. lia.
Qed.
(** Not at the end of the text: at the same place. *)
Lemma sim_here k s s' : sim k s s' -> remaining s <> [] -> sp_start s' = sp_start s /\ sp_start s < sp_end s /\ consumed s' = consumed s.
Proof.
  intros H N. destruct (sim_ok _ _ _ H) as [O1 O2].
  assert (L : sp_start s < sp_end s).
  { destruct (Nat.lt_ge_cases (sp_start s) (sp_end s)); auto. exfalso. apply N. unfold remaining, slice. replace (sp_end s - sp_start s) with 0 by lia. reflexivity. }
  destruct H as (E1 & E2 & H1 & H2 & D & [(C1 & C2 & _)|[C C2]]); [lia|]. split; [exact C|]. split; [exact L|].
  unfold consumed. rewrite E1, E2, C, firstn_app. replace (sp_start s - len) with 0 by lia. cbn. apply app_nil_r.
Qed.
Lemma sim_adv k s s' n : sim k s s' -> n <= length (remaining s) -> sim k (advance_start_by n s) (advance_start_by n s').
Proof.
  intros H L. destruct (sim_ok _ _ _ H) as [O1 O2]. rewrite <- remaining_len_eq, (rem_end _ _ _ H) in L by auto.
  destruct H as (E1 & E2 & H1 & H2 & D & C). unfold advance_start_by.
  destruct (Nat.ltb_spec (sp_end s) (sp_start s + n)); [lia|].
  split; [exact E1|]. split; [exact E2|]. cbn [sp_start sp_end sp_depth sp_inner]. split; [lia|]. split; [exact H2|]. split; [exact D|].
  destruct C as [(C1 & C2 & C3 & C4)|[C C2]].
  - left. unfold over. cbn [sp_start sp_end]. destruct (Nat.ltb_spec (sp_end s') (sp_start s' + n)); lia.
  - right. cbn [sp_start sp_end]. destruct (Nat.ltb_spec (sp_end s') (sp_start s' + n)); destruct k; try lia.
Qed.
Lemma sim_end k s s' n : sim k s s' -> n <= length (remaining s) -> sim false (advance_end_by n s) (advance_end_by n s').
Proof.
  intros H L. destruct (sim_ok _ _ _ H) as [O1 O2]. rewrite <- remaining_len_eq, (rem_end _ _ _ H) in L by auto.
  destruct H as (E1 & E2 & H1 & H2 & D & C). unfold advance_end_by.
  split; [exact E1|]. split; [exact E2|]. cbn [sp_start sp_end sp_depth sp_inner]. split; [lia|]. split; [lia|]. split; [exact D|].
  destruct C as [(C1 & C2 & C3 & C4)|[C C2]]; [left|right]; unfold over; cbn [sp_start sp_end]; lia.
Qed.
Lemma sim_depth d k s s' : sim k s s' -> sim k (with_depth d s) (with_depth d s').
Proof. intros (E1 & E2 & H1 & H2 & D & C). repeat split; auto. Qed.
Lemma sim_eqb k s s' t t' : sim k s s' -> sim k t t' -> remaining s <> [] -> span_eqb t' s' = span_eqb t s.
Proof.
  intros H G N. destruct (sim_here _ _ _ H N) as (C & L & _).
  destruct H as (E1 & E2 & H1 & H2 & D & HC), G as (F1 & F2 & G1 & G2 & D2 & GC). unfold span_eqb.
  rewrite E1, E2, F1, F2, D, D2, C, !str_eqb_refl. destruct HC as [(? & ? & _)|[_ HC]]; [lia|].
  destruct GC as [(A1 & A2 & A3 & A4)|[GC1 GC2]].
  - replace (sp_start t' =? sp_start s) with false by (symmetry; apply Nat.eqb_neq; lia).
    replace (sp_start t =? sp_start s) with false by (symmetry; apply Nat.eqb_neq; lia). reflexivity.
  - rewrite GC1. destruct k; [|now rewrite HC, GC2].
    destruct HC as [-> ->], GC2 as [-> ->]. now rewrite !Nat.eqb_refl.
Qed.

Notation simL := (sim false).
Lemma simL_rem s s' : simL s s' -> remaining s' = remaining s.
Proof. intro H. destruct (sim_rem _ _ _ H) as [R|(K & _)]; [exact R|discriminate]. Qed.
Lemma simL_len s s' : simL s s' -> remaining_len s' = remaining_len s.
Proof. intro H. destruct (sim_len _ _ _ H) as [R|(K & _)]; [exact R|discriminate]. Qed.

(** * Results *)

Definition rel (k : bool) {A} (R : A -> A -> Prop) (r r' : res A) : Prop :=
  match r, r' with
  | OutOfFuel, _ => True
  | _, OutOfFuel => True
  | Ok s a, Ok s' a' => sim k s s' /\ R a a'
  | Err, Err => True
  | Panic, Panic => True
  | _, _ => False
  end.
Definition simp {A} (R : A -> A -> Prop) (p p' : parser A) : Prop := forall k s s', sim k s s' -> rel k R (p s) (p' s').
Definition simpL {A} (R : A -> A -> Prop) (p p' : parser A) : Prop := forall s s', simL s s' -> rel false R (p s) (p' s').
Definition any {A} (_ _ : A) : Prop := True.

Lemma rel_weaken k {A} (R Q : A -> A -> Prop) r r' : rel k R r r' -> (forall a a', R a a' -> Q a a') -> rel k Q r r'.
Proof. destruct r, r'; simpl; intuition. Qed.
Lemma simp_weaken {A} (R Q : A -> A -> Prop) p p' : simp R p p' -> (forall a a', R a a' -> Q a a') -> simp Q p p'.
Proof. intros H W k s s' Hs. eapply rel_weaken; [now apply H|exact W]. Qed.
Lemma simp_L {A} (R : A -> A -> Prop) p p' : simp R p p' -> simpL R p p'.
Proof. intros H s s' Hs. now apply H. Qed.
Lemma rel_any k {A} (R : A -> A -> Prop) r r' : rel k R r r' -> rel k any r r'.
Proof. intro H. eapply rel_weaken; [exact H|]. intros; exact I. Qed.
Lemma simp_any {A} (R : A -> A -> Prop) p p' : simp R p p' -> simp any p p'.
Proof. intro H. eapply simp_weaken; [exact H|]. intros; exact I. Qed.
Lemma rel_bind k j {A B} (R : A -> A -> Prop) (Q : B -> B -> Prop) r r' f f' :
  rel j R r r' -> (forall s s' a a', sim j s s' -> R a a' -> rel k Q (f s a) (f' s' a')) ->
  rel k Q (bind r f) (bind r' f').
Proof.
  destruct r, r'; simpl; try tauto; intros H W; auto.
  - destruct H. now apply W.
  - destruct (f s a); auto.
Qed.
Lemma rel_ok k {A} (R : A -> A -> Prop) s s' a a' : sim k s s' -> R a a' -> rel k R (Ok s a) (Ok s' a').
Proof. simpl. auto. Qed.

(** * Nothing left *)

(** Without anything to read the parser fails. *)
Definition stuckr {A} (r : res A) : Prop := r = Err \/ r = OutOfFuel.
Definition stuck {A} (p : parser A) : Prop := forall s, remaining s = [] -> stuckr (p s).
(** It succeeds at most where there is still nothing left. *)
Definition keepr {A} (r : res A) : Prop := match r with Ok t _ => remaining t = [] | Panic => False | _ => True end.
Definition keep {A} (p : parser A) : Prop := forall s, remaining s = [] -> keepr (p s).

Lemma adv_nil n s : remaining s = [] -> remaining (advance_start_by n s) = [].
Proof.
  unfold remaining, slice, advance_start_by. cbn [sp_start sp_end sp_inner]. intro H.
  destruct (Nat.ltb_spec (sp_end s) (sp_start s + n)) as [L|L]; [now rewrite Nat.sub_diag|].
  assert (X : sp_end s <= sp_start s \/ length (sp_inner s) <= sp_start s).
  { destruct (Nat.le_gt_cases (sp_end s) (sp_start s)); auto. right. apply (f_equal (@length byte)) in H.
    rewrite firstn_length, skipn_length in H. cbn in H. lia. }
  destruct X as [X|X]; [replace (sp_end s - (sp_start s + n)) with 0 by lia; reflexivity|].
  rewrite skipn_all2 by lia. apply firstn_nil.
Qed.
Lemma stuck_relr k {A} (R : A -> A -> Prop) r r' : stuckr r -> stuckr r' -> rel k R r r'.
Proof. intros [->| ->] [->| ->]; exact I. Qed.
Lemma sim_nil k s s' : sim k s s' -> remaining s = [] -> over s s' \/ remaining s' = [] \/ (k = true /\ sp_start s' = sp_start s /\ sp_start s = len /\ remaining s' = [b_nl]).
Proof.
  intros H N. destruct (sim_ok _ _ _ H) as [O1 O2]. destruct (sim_rem _ _ _ H) as [R|(K & C & R & _ & E1 & E2)]; [rewrite N in R; auto|].
  right. right. rewrite N in R. split; [exact K|]. split; [exact C|]. split; [|exact R].
  apply (f_equal (@length byte)) in N. rewrite <- remaining_len_eq, (rem_end _ _ _ H) in N by auto. cbn in N. destruct O1. lia.
Qed.
Lemma stuck_bind {A B} (p : parser A) (f : span -> A -> res B) : stuck p -> stuck (fun s => bind (p s) f).
Proof. intros H s N. destruct (H s N) as [->| ->]; [now left|now right]. Qed.
Lemma stuck_keep {A B} (p : parser A) (f : span -> A -> res B) : keep p -> (forall a, stuck (fun t => f t a)) -> stuck (fun s => bind (p s) f).
Proof. intros H W s N. specialize (H s N). destruct (p s); simpl in *; [now apply W|now left|contradiction|now right]. Qed.
Lemma keep_bind {A B} (p : parser A) (f : span -> A -> res B) : keep p -> (forall a, keep (fun t => f t a)) -> keep (fun s => bind (p s) f).
Proof. intros H W s N. specialize (H s N). destruct (p s); simpl in *; auto. now apply W. Qed.
Lemma keep_ok {A} (a : A) : keep (fun s => Ok s a).
Proof. intros s N. exact N. Qed.
Lemma stuck_fail {A} : stuck (@fail A).
Proof. intros s _. now left. Qed.
Lemma stuck_pmap {A B} (p : parser A) (f : A -> B) : stuck p -> stuck (pmap p f).
Proof. apply stuck_bind. Qed.
Lemma stuck_value {A B} (p : parser A) (b : B) : stuck p -> stuck (value b p).
Proof. apply stuck_bind. Qed.
Lemma stuck_verify {A} (p : parser A) f : stuck p -> stuck (verify p f).
Proof. apply stuck_bind. Qed.
Lemma stuck_map_opt {A B} (p : parser A) (f : A -> option B) : stuck p -> stuck (map_opt p f).
Proof. apply stuck_bind. Qed.
Lemma stuck_map_parser {B} p (q : parser B) : stuck p -> stuck (map_parser p q).
Proof. apply stuck_bind. Qed.
Lemma stuck_preceded {A B} (p : parser A) (q : parser B) : stuck p -> stuck (preceded p q).
Proof. apply stuck_bind. Qed.
Lemma stuck_preceded2 {A B} (p : parser A) (q : parser B) : keep p -> stuck q -> stuck (preceded p q).
Proof. intros H W. apply stuck_keep; auto. Qed.
Lemma stuck_terminated {A B} (p : parser A) (q : parser B) : stuck p -> stuck (terminated p q).
Proof. apply stuck_bind. Qed.
Lemma stuck_pair {A B} (p : parser A) (q : parser B) : stuck p -> stuck (pair p q).
Proof. apply stuck_bind. Qed.
Lemma stuck_pair2 {A B} (p : parser A) (q : parser B) : keep p -> stuck q -> stuck (pair p q).
Proof. intros H W. apply stuck_keep; [exact H|]. intro a. now apply stuck_bind. Qed.
Lemma stuck_many1 {A} (p : parser A) : stuck p -> stuck (many1 p).
Proof. apply stuck_bind. Qed.
Lemma stuck_sep1 {A B} (p : parser A) (q : parser B) : stuck p -> stuck (separated_list1 q p).
Proof. apply stuck_bind. Qed.
Lemma stuck_located {A} (p : parser A) : stuck p -> stuck (located_p p).
Proof. intros H s N. unfold located_p, locate, capture. destruct (H s N) as [->| ->]; [now left|now right]. Qed.
Lemma stuck_deeper {A} (p : parser A) : stuck p -> stuck (deeper p).
Proof. intros H s N. unfold deeper. destruct (H (with_deeper s) N) as [->| ->]; [now left|now right]. Qed.
Lemma stuck_peek {A} (p : parser A) : stuck p -> stuck (peek p).
Proof. intros H s N. unfold peek. destruct (H s N) as [->| ->]; [now left|now right]. Qed.
Lemma stuck_palt {A} (p q : parser A) : stuck p -> stuck q -> stuck (palt p q).
Proof. intros H W s N. unfold palt. destruct (H s N) as [->| ->]; [now apply W|now right]. Qed.
Lemma stuck_alt {A} (ps : list (parser A)) : Forall stuck ps -> stuck (alt ps).
Proof. induction 1; [apply stuck_fail|]. now apply stuck_palt. Qed.
Lemma keep_pnot {A} (p : parser A) : stuck p -> keep (pnot p).
Proof. intros H s N. unfold pnot. destruct (H s N) as [->| ->]; cbn; auto. Qed.
Lemma keep_opt {A} (p : parser A) : stuck p -> keep (opt p).
Proof. intros H s N. unfold opt. destruct (H s N) as [->| ->]; cbn; auto. Qed.
Lemma keep_many0 {A} (p : parser A) : stuck p -> keep (many0 p).
Proof. intros H s N. unfold many0. cbn [many0_fuel]. destruct (H s N) as [->| ->]; cbn; auto. Qed.
Lemma keep_space0 : keep space0.
Proof. intros s N. unfold space0, take_while0, ok_split. cbn. now apply adv_nil. Qed.
Lemma keep_bol : keep beginning_of_line.
Proof. intros s N. unfold beginning_of_line. destruct (rev (consumed s)); cbn; auto. destruct (is_nl _); cbn; auto. Qed.
Lemma keep_pmap {A B} (p : parser A) (f : A -> B) : keep p -> keep (pmap p f).
Proof. intro H. apply keep_bind; [exact H|]. intro. apply keep_ok. Qed.
Lemma keep_peek {A} (p : parser A) : keep p -> keep (peek p).
Proof. intros H s N. specialize (H s N). unfold peek. destruct (p s); cbn in *; auto. Qed.
Lemma keep_verify {A} (p : parser A) f : keep p -> keep (verify p f).
Proof. intro H. apply keep_bind; [exact H|]. intros a s N. destruct (f a); cbn; auto. Qed.
Lemma stuck_tag t : t <> [] -> stuck (tag t).
Proof. intros T s N. unfold tag. rewrite N. destruct t; [congruence|]. now left. Qed.
Lemma stuck_pchar c : stuck (pchar c).
Proof. intros s N. unfold pchar. rewrite N. now left. Qed.
Lemma stuck_one_of c : stuck (one_of c).
Proof. intros s N. unfold one_of. rewrite N. now left. Qed.
Lemma stuck_while1 p : stuck (take_while1 p).
Proof. intros s N. unfold take_while1. rewrite N. now left. Qed.
Lemma stuck_word_ : stuck whole_word.
Proof. intros s N. unfold whole_word. cbv zeta. destruct (negb _); [now left|]. now apply stuck_while1. Qed.
Lemma stuck_surround L R : L <> [] -> stuck (surround_in_line1 L R).
Proof. intro H. apply stuck_bind. now apply stuck_tag. Qed.

(** * Combinators *)

Lemma simp_pmap {A B} (R : A -> A -> Prop) (Q : B -> B -> Prop) p p' (f f' : A -> B) :
  simp R p p' -> (forall a a', R a a' -> Q (f a) (f' a')) -> simp Q (pmap p f) (pmap p' f').
Proof. intros H W k s s' Hs. eapply rel_bind; [eapply H; eassumption|]. intros. apply rel_ok; auto. Qed.
Lemma simp_value {A B} (R : A -> A -> Prop) p p' (b : B) : simp R p p' -> simp eq (value b p) (value b p').
Proof. intro H. eapply simp_pmap; [exact H|]. reflexivity. Qed.
Definition opt_rel {A} (R : A -> A -> Prop) (o o' : option A) : Prop :=
  match o, o' with Some a, Some a' => R a a' | None, None => True | _, _ => False end.
Lemma simp_opt {A} (R : A -> A -> Prop) p p' : simp R p p' -> simp (opt_rel R) (opt p) (opt p').
Proof. intros W k s s' Hs. pose proof (W _ _ _ Hs) as H. unfold opt. destruct (p s), (p' s'); simpl in *; try tauto. Qed.
Lemma simp_peek {A} (R : A -> A -> Prop) p p' : simp R p p' -> simp R (peek p) (peek p').
Proof. intros H k s s' Hs. eapply rel_bind; [eapply H; eassumption|]. intros. now apply rel_ok. Qed.
Lemma simp_pnot {A} (R : A -> A -> Prop) p p' : simp R p p' -> simp any (pnot p) (pnot p').
Proof. intros W k s s' Hs. pose proof (W _ _ _ Hs) as H. unfold pnot. destruct (p s), (p' s'); simpl in *; try tauto. Qed.
Lemma simp_verify {A} (R : A -> A -> Prop) p p' (f f' : A -> bool) :
  simp R p p' -> (forall a a', R a a' -> f' a' = f a) -> simp R (verify p f) (verify p' f').
Proof.
  intros H W k s s' Hs. eapply rel_bind; [eapply H; eassumption|]. intros t t' a a' Ht Ha. rewrite (W _ _ Ha).
  destruct (f a); simpl; auto.
Qed.
Lemma simp_map_opt {A B} (R : A -> A -> Prop) (Q : B -> B -> Prop) p p' (f f' : A -> option B) :
  simp R p p' -> (forall a a', R a a' -> opt_rel Q (f a) (f' a')) -> simp Q (map_opt p f) (map_opt p' f').
Proof.
  intros H W k s s' Hs. eapply rel_bind; [eapply H; eassumption|]. intros t t' a a' Ht Ha. specialize (W _ _ Ha).
  destruct (f a), (f' a'); simpl in *; tauto.
Qed.
Lemma simp_map_parser {B} (Q : B -> B -> Prop) p p' (q q' : parser B) :
  simp simL p p' -> simpL Q q q' -> simp Q (map_parser p q) (map_parser p' q').
Proof.
  intros H W k s s' Hs. eapply rel_bind; [eapply H; eassumption|]. intros t t' o o' Ht Ho.
  eapply rel_bind; [eapply W; eassumption|]. intros. now apply rel_ok.
Qed.
Lemma rel_palt k {A} (R : A -> A -> Prop) (p p' q q' : parser A) s s' :
  rel k R (p s) (p' s') -> rel k R (q s) (q' s') -> rel k R (palt p q s) (palt p' q' s').
Proof.
  intros H1 H2. unfold palt. destruct (p s), (p' s'); simpl in *; try tauto. destruct (q s); exact I.
Qed.
Lemma simp_palt {A} (R : A -> A -> Prop) p p' q q' : simp R p p' -> simp R q q' -> simp R (palt p q) (palt p' q').
Proof. intros H1 H2 k s s' Hs. apply rel_palt; auto. Qed.
Lemma simp_fail {A} (R : A -> A -> Prop) : simp R fail fail.
Proof. intros k s s' _. exact I. Qed.
Lemma simp_alt {A} (R : A -> A -> Prop) ps ps' : Forall2 (simp R) ps ps' -> simp R (alt ps) (alt ps').
Proof. induction 1; [apply simp_fail|]. apply simp_palt; auto. Qed.
Definition pair_rel {A B} (R : A -> A -> Prop) (Q : B -> B -> Prop) (x y : A * B) : Prop := R (fst x) (fst y) /\ Q (snd x) (snd y).
Lemma simp_pair {A B} (R : A -> A -> Prop) (Q : B -> B -> Prop) p p' q q' :
  simp R p p' -> simp Q q q' -> simp (pair_rel R Q) (pair p q) (pair p' q').
Proof.
  intros H W k s s' Hs. eapply rel_bind; [eapply H; eassumption|]. intros t t' a a' Ht Ha. eapply rel_bind; [eapply W; eassumption|].
  intros. apply rel_ok; auto. split; auto.
Qed.
Lemma simp_preceded {A B} (R : A -> A -> Prop) (Q : B -> B -> Prop) p p' (q q' : parser B) :
  simp R p p' -> simp Q q q' -> simp Q (preceded p q) (preceded p' q').
Proof. intros H W k s s' Hs. eapply rel_bind; [eapply H; eassumption|]. intros t t' a a' Ht Ha. now apply W. Qed.
Lemma simp_terminated {A B} (R : A -> A -> Prop) (Q : B -> B -> Prop) p p' (q q' : parser B) :
  simp R p p' -> simp Q q q' -> simp R (terminated p q) (terminated p' q').
Proof.
  intros H W k s s' Hs. eapply rel_bind; [eapply H; eassumption|]. intros t t' a a' Ht Ha. eapply rel_bind; [eapply W; eassumption|].
  intros. now apply rel_ok.
Qed.
Lemma simp_delimited {A B C} (R : A -> A -> Prop) (Q : B -> B -> Prop) (S : C -> C -> Prop) p p' q q' r r' :
  simp R p p' -> simp Q q q' -> simp S r r' -> simp Q (delimited p q r) (delimited p' q' r').
Proof. intros. eapply simp_preceded; eauto. eapply simp_terminated; eauto. Qed.
Lemma simp_separated_pair {A B C} (R : A -> A -> Prop) (Q : B -> B -> Prop) (S : C -> C -> Prop) p p' q q' r r' :
  simp R p p' -> simp Q q q' -> simp S r r' -> simp (pair_rel R S) (separated_pair p q r) (separated_pair p' q' r').
Proof.
  intros H W V k s s' Hs. eapply rel_bind; [eapply H; eassumption|]. intros t t' a a' Ht Ha. eapply rel_bind; [eapply W; eassumption|].
  intros. eapply rel_bind; [eapply V; eassumption|]. intros. apply rel_ok; auto. split; auto.
Qed.
Lemma simp_recognize {A} (R : A -> A -> Prop) (p p' : parser A) k s s' : sim k s s' -> remaining s <> [] -> rel k R (p s) (p' s') ->
  rel k (fun o o' => exists j, sim j o o') (recognize p s) (recognize p' s').
Proof.
  intros Hs N H. destruct (sim_here _ _ _ Hs N) as (C & L & _). eapply rel_bind; [exact H|]. intros t t' a a' Ht Ha.
  destruct Hs as (E1 & E2 & H1 & H2 & D & _). pose proof Ht as (F1 & F2 & G1 & G2 & D2 & [(A1 & A2 & A3 & A4)|[A1 A2]]).
  - rewrite C, A1, A3. replace (len <? sp_start s) with false by (symmetry; apply Nat.ltb_ge; lia).
    replace (S len <? sp_start s) with false by (symmetry; apply Nat.ltb_ge; lia). apply rel_ok; [exact Ht|]. exists true.
    unfold advance_end_by. repeat split; cbn [sp_start sp_end sp_inner sp_depth]; auto; try lia.
  - rewrite C, A1. destruct (Nat.ltb_spec (sp_start t) (sp_start s)); [exact I|]. apply rel_ok; [exact Ht|]. exists false.
    unfold advance_end_by. repeat split; cbn [sp_start sp_end sp_inner sp_depth]; auto; try lia.
Qed.
Lemma rel_many0 {A} (R : A -> A -> Prop) k p p' : stuck p -> (forall s s', sim k s s' -> rel k R (p s) (p' s')) -> forall f f' s s', sim k s s' ->
  rel k (Forall2 R) (many0_fuel f p s) (many0_fuel f' p' s').
Proof.
  intros W H. induction f as [|f IH]; intros f' s s' Hs; [exact I|]. destruct f' as [|f'].
  { destruct (many0_fuel (S f) p s); exact I. }
  cbn [many0_fuel]. pose proof (H _ _ Hs) as Hp. destruct (remaining s) as [|b r] eqn:N.
  { destruct (W s N) as [X|X]; rewrite X in *; [|exact I]. destruct (p' s'); simpl in Hp; try contradiction; [|exact I]. apply rel_ok; auto. }
  destruct (p s) as [t a| | |], (p' s') as [t' a'| | |]; simpl in Hp; try contradiction; try exact I.
  - destruct Hp as [Ht Ha]. rewrite (sim_eqb _ _ _ _ _ Hs Ht) by (rewrite N; discriminate). destruct (span_eqb t s); [exact I|].
    eapply rel_bind; [eapply IH; eassumption|]. intros. apply rel_ok; auto.
  - destruct (span_eqb t s); [exact I|]. destruct (bind _ _); exact I.
  - simpl. auto.
Qed.
Lemma simp_many0 {A} (R : A -> A -> Prop) p p' : stuck p -> simp R p p' -> simp (Forall2 R) (many0 p) (many0 p').
Proof. intros W H k s s' Hs. apply rel_many0; auto. Qed.
Lemma simp_many1 {A} (R : A -> A -> Prop) p p' : stuck p -> simp R p p' -> simp (Forall2 R) (many1 p) (many1 p').
Proof.
  intros W H k s s' Hs. eapply rel_bind; [eapply H; eassumption|]. intros. eapply rel_bind; [eapply simp_many0; eauto|].
  intros. apply rel_ok; auto.
Qed.
Lemma rel_sep {A B} (R : A -> A -> Prop) (Q : B -> B -> Prop) sep sep' p p' : stuck sep -> simp Q sep sep' -> simp R p p' -> forall f f' k s s', sim k s s' ->
  rel k (Forall2 R) (sep_loop f sep p s) (sep_loop f' sep' p' s').
Proof.
  intros Z W H. induction f as [|f IH]; intros f' k s s' Hs; [exact I|]. destruct f' as [|f'].
  { destruct (sep_loop (S f) sep p s); exact I. }
  cbn [sep_loop]. pose proof (W _ _ _ Hs) as Hp. destruct (remaining s) as [|b0 r] eqn:N.
  { destruct (Z s N) as [X|X]; rewrite X in *; [|exact I]. destruct (sep' s'); simpl in Hp; try contradiction; [|exact I]. apply rel_ok; auto. }
  destruct (sep s) as [t a| | |], (sep' s') as [t' a'| | |]; simpl in Hp; try contradiction; try exact I.
  - destruct Hp as [Ht Ha]. rewrite (sim_eqb _ _ _ _ _ Hs Ht) by (rewrite N; discriminate). destruct (span_eqb t s); [exact I|].
    pose proof (H _ _ _ Ht) as Hp. destruct (p t) as [v b| | |], (p' t') as [v' b'| | |]; simpl in Hp; try contradiction; try exact I.
    + eapply rel_bind; [apply IH; apply Hp|]. intros. apply rel_ok; auto. constructor; tauto.
    + destruct (bind _ _); exact I.
    + simpl. auto.
  - destruct (span_eqb t s); [exact I|]. destruct (p t); try exact I. destruct (bind _ _); exact I.
  - simpl. auto.
Qed.
Lemma simp_sep1 {A B} (R : A -> A -> Prop) (Q : B -> B -> Prop) sep sep' p p' : stuck sep -> simp Q sep sep' -> simp R p p' ->
  simp (Forall2 R) (separated_list1 sep p) (separated_list1 sep' p').
Proof.
  intros Z W H k s s' Hs. eapply rel_bind; [eapply H; eassumption|]. intros. eapply rel_bind; [eapply rel_sep; eauto|].
  intros. apply rel_ok; auto.
Qed.
Lemma simp_sep0 {A B} (R : A -> A -> Prop) (Q : B -> B -> Prop) sep sep' p p' : stuck sep -> simp Q sep sep' -> simp R p p' ->
  simp (Forall2 R) (separated_list0 sep p) (separated_list0 sep' p').
Proof.
  intros Z W H k s s' Hs. unfold separated_list0. pose proof (H _ _ _ Hs) as Hp.
  destruct (p s) as [t a| | |], (p' s') as [t' a'| | |]; simpl in Hp; try contradiction; try exact I.
  - eapply rel_bind; [eapply rel_sep; eauto; apply Hp|]. intros. apply rel_ok; auto. constructor; tauto.
  - destruct (bind _ _); exact I.
  - simpl. auto.
Qed.
Lemma simp_deeper {A} (R : A -> A -> Prop) p p' : simp R p p' -> simp R (deeper p) (deeper p').
Proof.
  intros H k s s' Hs. pose proof Hs as (_ & _ & _ & _ & D & _). eapply rel_bind.
  - apply H. unfold with_deeper. rewrite D. apply sim_depth; eassumption.
  - intros t t' a a' Ht Ha. apply rel_ok; auto. pose proof Ht as (_ & _ & _ & _ & D2 & _). unfold with_shallower. rewrite D2.
    now apply sim_depth.
Qed.

(** Related values found at related places. *)
Definition RL {A} (R : A -> A -> Prop) (x x' : located A) : Prop :=
  R (l_val x) (l_val x') /\ (r_off (l_reg x') = r_off (l_reg x) \/ (r_off (l_reg x) = len /\ r_off (l_reg x') = S len)).
Definition idle {A} (p : parser A) : Prop := forall s, remaining s = [] -> match p s with Ok t _ => t = s | _ => True end.
Lemma stuck_idle {A} (p : parser A) : stuck p -> idle p.
Proof. intros H s N. destruct (H s N) as [->| ->]; exact I. Qed.
Lemma idle_many0 {A} (p : parser A) : stuck p -> idle (many0 p).
Proof. intros H s N. unfold many0. cbn [many0_fuel]. destruct (H s N) as [->| ->]; cbn; auto. Qed.
Lemma idle_verify {A} (p : parser A) f : idle p -> idle (verify p f).
Proof. intros H s N. specialize (H s N). unfold verify. destruct (p s); cbn; auto. now destruct (f a). Qed.
Lemma wl_off n s : r_off (region_of (with_length n s)) = sp_start s.
Proof. unfold with_length. now destruct (_ <? _). Qed.
Lemma over_nil s s' : over s s' -> remaining s = [] /\ remaining s' = [].
Proof. intros (A1 & A2 & A3 & A4). unfold remaining, slice. rewrite A1, A2, A3, A4, !Nat.sub_diag. auto. Qed.
Lemma simp_located_ {A} (R : A -> A -> Prop) p p' : idle p -> idle p' -> simp R p p' -> simp (RL R) (located_p p) (located_p p').
Proof.
  intros Z Z' W k s s' Hs. pose proof (W _ _ _ Hs) as H. unfold located_p, locate, capture.
  destruct (p s) as [t a| | |] eqn:P, (p' s') as [t' a'| | |] eqn:P'; simpl in H; try contradiction; try exact I.
  2: { cbn [bind]. destruct (sp_start t <? sp_start s); exact I. }
  destruct H as [Ht Ha]. cbn [bind].
  assert (C : (sp_start t' <? sp_start s') = (sp_start t <? sp_start s)).
  { pose proof Hs as (_ & _ & S1 & S2 & _ & [O|[C C2]]).
    - destruct (over_nil _ _ O) as [N N']. specialize (Z s N). specialize (Z' s' N'). rewrite P in Z. rewrite P' in Z'. subst.
      now rewrite !Nat.ltb_irrefl.
    - rewrite C. destruct Ht as (_ & _ & _ & _ & _ & [(T1 & T2 & T3 & T4)|[T _]]); [|now rewrite T].
      destruct (Nat.ltb_spec (sp_start t') (sp_start s)), (Nat.ltb_spec (sp_start t) (sp_start s)); auto; lia. }
  rewrite C. destruct (sp_start t <? sp_start s); [exact I|]. cbn [bind rel]. split; [exact Ht|]. split; [exact Ha|]. cbn [l_reg snd]. rewrite !wl_off.
  destruct Hs as (_ & _ & _ & _ & _ & [(O1 & O2 & O3 & O4)|[C1 _]]); auto.
Qed.
Lemma simp_located {A} (R : A -> A -> Prop) p p' : stuck p -> stuck p' -> simp R p p' -> simp (RL R) (located_p p) (located_p p').
Proof. intros Z Z'. apply simp_located_; now apply stuck_idle. Qed.
Lemma RL_lmap {A B} (R : A -> A -> Prop) (Q : B -> B -> Prop) (f f' : A -> B) x x' :
  RL R x x' -> (forall a a', R a a' -> Q (f a) (f' a')) -> RL Q (lmap f x) (lmap f' x').
Proof. intros (H1 & H2) W. split; simpl; auto. Qed.
Lemma simp_lmap {A B} (R : A -> A -> Prop) (Q : B -> B -> Prop) p p' (f f' : A -> B) :
  simp (RL R) p p' -> (forall a a', R a a' -> Q (f a) (f' a')) -> simp (RL Q) (pmap p (lmap f)) (pmap p' (lmap f')).
Proof. intros H W. eapply simp_pmap; [exact H|]. intros. eapply RL_lmap; eauto. Qed.

(** * Primitives *)

Lemma split_sim k s s' n : sim k s s' -> n <= length (remaining s) -> rel k simL (ok_split n s) (ok_split n s').
Proof. intros Hs L. split; [now apply sim_adv|]. now eapply sim_end; eauto. Qed.
(** A parser that takes as much as the text says. *)
Lemma simp_pick (f : str -> option nat) p :
  (forall r n, f r = Some n -> n <= length r) -> (forall r, good r -> f (r ++ [b_nl]) = f r) ->
  (forall s, span_ok s -> p s = match f (remaining s) with Some n => ok_split n s | None => Err end) -> simp simL p p.
Proof.
  intros L G P k s s' Hs. destruct (sim_ok _ _ _ Hs) as [O1 O2]. rewrite !P by auto.
  assert (F : f (remaining s') = f (remaining s)).
  { destruct (sim_rem _ _ _ Hs) as [->|(_ & _ & -> & N & _)]; [reflexivity|now apply G]. }
  rewrite F. destruct (f (remaining s)) as [n|] eqn:Q; [|exact I]. apply split_sim; eauto.
Qed.
Lemma sw_nl t r : clean t -> starts_with t (r ++ [b_nl]) = starts_with t r.
Proof.
  intros [C _]. revert r. induction t as [|b t IH]; intro r; [now destruct r|]. destruct r as [|c r]; cbn [app starts_with].
  - replace (beqb b b_nl) with false by (symmetry; apply beqb_neq; intro; subst; apply C; now left). reflexivity.
  - rewrite IH; [reflexivity|]. intro X. apply C. now right.
Qed.
Lemma simp_tag t : clean t -> simp simL (tag t) (tag t).
Proof.
  intro C. apply (simp_pick (fun r => if starts_with t r then Some (length t) else None)).
  - intros r n H. destruct (starts_with t r) eqn:X; [|discriminate]. injection H as <-. apply starts_with_spec in X as [x ->]. rewrite app_length. lia.
  - intros r _. now rewrite sw_nl.
  - intros s _. unfold tag. now destruct (starts_with t (remaining s)).
Qed.
Lemma one_sim k s s' b r : sim k s s' -> remaining s = b :: r -> sim k (advance_start_by 1 s) (advance_start_by 1 s').
Proof. intros H N. apply sim_adv; auto. rewrite N. cbn. lia. Qed.
Lemma head_cases k s s' : sim k s s' -> match remaining s, remaining s' with
  | b :: _, b' :: _ => b' = b | [], [] => True | [], b' :: _ => b' = b_nl | _, _ => False end.
Proof.
  intro H. destruct (sim_rem _ _ _ H) as [->|(_ & _ & -> & _)]; destruct (remaining s); cbn; auto.
Qed.
Lemma simp_pchar c : c <> b_nl -> c <> b_cr -> simp eq (pchar c) (pchar c).
Proof.
  intros C _ k s s' Hs. unfold pchar. pose proof (head_cases _ _ _ Hs) as HC. destruct (remaining s) as [|b r] eqn:N, (remaining s') as [|b' r']; try contradiction; try exact I.
  - subst b'. replace (beqb b_nl c) with false by (symmetry; apply beqb_neq; congruence). exact I.
  - subst b'. destruct (beqb b c); [|exact I]. apply rel_ok; auto. eapply one_sim; eauto.
Qed.
Lemma simp_one_of cs : clean cs -> simp eq (one_of cs) (one_of cs).
Proof.
  intros [C _] k s s' Hs. unfold one_of. pose proof (head_cases _ _ _ Hs) as HC. destruct (remaining s) as [|b r] eqn:N, (remaining s') as [|b' r']; try contradiction; try exact I.
  - subst b'. destruct (existsb (beqb b_nl) cs) eqn:X; [|exact I]. apply existsb_exists in X as (x & X1 & X2). apply beqb_eq in X2. subst x. now apply C in X1.
  - subst b'. destruct (existsb _ cs); [|exact I]. apply rel_ok; auto. eapply one_sim; eauto.
Qed.
Lemma cw_nl p (r : str) : p b_nl = false -> count_while p (r ++ [b_nl]) = count_while p r.
Proof. intro P. induction r as [|b r IH]; cbn; [now rewrite P|]. destruct (p b); congruence. Qed.
Lemma simp_take_while0 p : p b_nl = false -> p b_cr = false -> simp simL (take_while0 p) (take_while0 p).
Proof.
  intros P _. apply (simp_pick (fun r => Some (count_while p r))).
  - intros r n H. injection H as <-. apply count_while_le.
  - intros r _. now rewrite cw_nl.
  - reflexivity.
Qed.
Lemma simp_take_while1 p : p b_nl = false -> p b_cr = false -> simp simL (take_while1 p) (take_while1 p).
Proof.
  intros P _. apply (simp_pick (fun r => if count_while p r =? 0 then None else Some (count_while p r))).
  - intros r n H. destruct (_ =? 0); [discriminate|]. injection H as <-. apply count_while_le.
  - intros r _. now rewrite cw_nl.
  - intros s _. unfold take_while1. cbv zeta. now destruct (_ =? 0).
Qed.
Lemma simp_space0 : simp simL space0 space0.
Proof. now apply simp_take_while0. Qed.
Lemma simp_space1 : simp simL space1 space1.
Proof. now apply simp_take_while1. Qed.
Lemma simp_digit1 : simp simL digit1 digit1.
Proof. now apply simp_take_while1. Qed.
(** The end of a line, where there is something left. *)
Lemma rel_line_ending k s s' : sim k s s' -> remaining s <> [] \/ k = false -> rel k any (line_ending s) (line_ending s').
Proof.
  intros Hs N. unfold line_ending, palt, tag.
  assert (Q : starts_with nl_str (remaining s') = starts_with nl_str (remaining s) /\ starts_with crlf_str (remaining s') = starts_with crlf_str (remaining s)).
  { destruct (sim_rem _ _ _ Hs) as [->|(K & _ & -> & G & _)]; [auto|]. destruct (remaining s) as [|b [|c r]].
    - destruct N; congruence.
    - assert (X : beqb b_cr b = false) by (apply beqb_neq; intros <-; now destruct (G [])). unfold nl_str, crlf_str. cbn [app starts_with]. rewrite X. split; reflexivity.
    - split; reflexivity. }
  destruct Q as [-> ->]. destruct (starts_with nl_str (remaining s)) eqn:X.
  - apply rel_any with (R := simL), split_sim; auto. apply starts_with_spec in X as [r ->]. rewrite app_length. lia.
  - destruct (starts_with crlf_str (remaining s)) eqn:Y; [|exact I]. apply rel_any with (R := simL), split_sim; auto. apply starts_with_spec in Y as [r ->]. rewrite app_length. lia.
Qed.
Lemma simpL_line_ending : simpL any line_ending line_ending.
Proof. intros s s' Hs. apply rel_line_ending; auto. Qed.
Lemma empty_eq s : span_ok s -> sp_is_empty s = match remaining s with [] => true | _ => false end.
Proof. intro O. unfold sp_is_empty. rewrite remaining_len_eq by auto. now destruct (remaining s). Qed.
Lemma simp_eoi : simp any end_of_line_or_input end_of_line_or_input.
Proof.
  intros k s s' Hs. destruct (sim_ok _ _ _ Hs) as [O1 O2]. unfold end_of_line_or_input. rewrite !empty_eq by auto.
  destruct (remaining s) as [|b r] eqn:N.
  - destruct (remaining s') as [|b' r'] eqn:N'; [now apply rel_ok|].
    destruct (sim_nil _ _ _ Hs N) as [O|[R|(K & C & S1 & R)]]; [destruct (over_nil _ _ O); congruence|congruence|].
    unfold line_ending, palt, tag. rewrite R. cbn [nl_str starts_with andb beqb]. rewrite beqb_refl. cbn [andb bind ok_split]. apply rel_ok; [|exact I].
    subst k. destruct Hs as (E1 & E2 & H1 & H2 & D & HC). destruct HC as [(A1 & A2 & A3 & A4)|[HC (A1 & A2)]].
    + exfalso. lia.
    + unfold advance_start_by. cbn [length nl_str sp_start sp_end sp_depth sp_inner]. replace (sp_end s' <? sp_start s' + 1) with false by (symmetry; apply Nat.ltb_ge; lia).
      repeat split; cbn [sp_start sp_end sp_inner sp_depth]; auto. left. unfold over. cbn [sp_start sp_end]. lia.
  - destruct (remaining s') as [|b' r'] eqn:N'; [pose proof (head_cases _ _ _ Hs) as X; rewrite N, N' in X; contradiction|].
    eapply rel_bind; [apply rel_line_ending; [exact Hs|left; congruence]|]. intros. now apply rel_ok.
Qed.

(** What stands before. *)
Lemma simp_whole_word : simp simL whole_word whole_word.
Proof.
  intros k s s' Hs. unfold whole_word. cbv zeta. pose proof (simp_take_while1 (fun c => negb (is_ascii_ws c)) eq_refl eq_refl _ _ _ Hs) as T.
  destruct (remaining s) as [|b r] eqn:N.
  - assert (X : take_while1 (fun c => negb (is_ascii_ws c)) s = Err) by (unfold take_while1; now rewrite N).
    rewrite X in *. destruct (take_while1 _ s') as [| | |]; try contradiction; repeat destruct (negb _); exact I.
  - destruct (sim_here _ _ _ Hs) as (_ & _ & ->); [congruence|]. destruct (negb _); [exact I|exact T].
Qed.
Lemma rel_bol k s s' : sim k s s' -> remaining s <> [] -> rel k any (beginning_of_line s) (beginning_of_line s').
Proof.
  intros Hs N. unfold beginning_of_line. destruct (sim_here _ _ _ Hs N) as (_ & _ & ->).
  destruct (rev (consumed s)); [now apply rel_ok|]. destruct (is_nl _); [now apply rel_ok|exact I].
Qed.
(** At the end of the text no line begins. *)
Lemma last_rev : exists b r, rev bod = b :: r /\ b <> b_nl.
Proof. destruct bod_last as (x & b & B & B1 & _). rewrite B, rev_app_distr. exists b, (rev x). auto. Qed.
Lemma bol_end s : sp_inner s = bod -> sp_start s = len -> beginning_of_line s = Err.
Proof.
  intros I S. unfold beginning_of_line, consumed. rewrite I, S, firstn_all. destruct last_rev as (b & r & -> & N).
  unfold is_nl. now rewrite (proj2 (beqb_neq b b_nl) N).
Qed.
Lemma bol_end' s : sp_inner s = bod ++ [b_nl] -> sp_start s = len -> beginning_of_line s = Err.
Proof.
  intros I S. unfold beginning_of_line, consumed. rewrite I, S, firstn_app, firstn_all, Nat.sub_diag. cbn [firstn]. rewrite app_nil_r.
  destruct last_rev as (b & r & -> & N). unfold is_nl. now rewrite (proj2 (beqb_neq b b_nl) N).
Qed.
(** Parsers that ask for the beginning of a line. *)
Lemma simp_lined {A} (R : A -> A -> Prop) (f f' : span -> unit -> res A) :
  (forall s u, remaining s = [] -> stuckr (f s u)) -> (forall s u, remaining s = [] -> stuckr (f' s u)) ->
  (forall k s s' u u', sim k s s' -> remaining s <> [] -> rel k R (f s u) (f' s' u')) ->
  simp R (fun s => bind (beginning_of_line s) f) (fun s => bind (beginning_of_line s) f').
Proof.
  intros Z Z' W k s s' Hs. destruct (remaining s) as [|b r] eqn:N.
  - assert (P : stuckr (bind (beginning_of_line s) f)).
    { apply (stuck_keep _ f keep_bol); [|exact N]. intros u t T. now apply Z. }
    destruct (sim_nil _ _ _ Hs N) as [O|[R'|(K & C & S1 & R')]].
    + apply stuck_relr; [exact P|]. apply (stuck_keep _ f' keep_bol); [|apply (over_nil _ _ O)]. intros u t T. now apply Z'.
    + apply stuck_relr; [exact P|]. apply (stuck_keep _ f' keep_bol); [|exact R']. intros u t T. now apply Z'.
    + rewrite (bol_end' s') by (try apply Hs; lia). apply stuck_relr; [exact P|now left].
  - pose proof (rel_bol k s s' Hs ltac:(congruence)) as B. unfold beginning_of_line in *.
    destruct (sim_here _ _ _ Hs) as (_ & _ & Q); [congruence|]. rewrite Q in *.
    destruct (rev (consumed s)); [cbn [bind]; apply W; auto; congruence|]. destruct (is_nl _); cbn [bind]; [|exact I]. apply W; auto; congruence.
Qed.
Lemma found_more p r c j : found p r j -> found p (r ++ c) j.
Proof. intros (a & b & -> & L). exists a, (b ++ c). rewrite <- !app_assoc. auto. Qed.
Lemma found_nl p r j : ~ In b_nl p -> p <> [] -> found p (r ++ [b_nl]) j -> found p r j.
Proof.
  intros N P (a & b & H & L). destruct b as [|c b _] using rev_ind.
  - rewrite app_nil_r in H. destruct (exists_last P) as (p' & c & ->). rewrite app_assoc in H. apply app_inj_tail in H as [_ H].
    exfalso. apply N. rewrite <- H. apply in_or_app. right. now left.
  - rewrite !app_assoc in H. apply app_inj_tail in H as [H _]. exists a, b. rewrite <- app_assoc in H. auto.
Qed.
Lemma eol_nl r j : good r -> eol_found (r ++ [b_nl]) j -> eol_found r j \/ j = length r.
Proof.
  intros G [(a & b & H & L)|(a & b & H & L)]; destruct b as [|c b _] using rev_ind.
  - rewrite app_nil_r in H. apply app_inj_tail in H as [-> _]. now right.
  - rewrite !app_assoc in H. apply app_inj_tail in H as [H _]. left. left. exists a, b. rewrite <- app_assoc in H. auto.
  - rewrite app_nil_r in H. change [b_cr; b_nl] with ([b_cr] ++ [b_nl]) in H. rewrite app_assoc in H. apply app_inj_tail in H as [H _]. now destruct (G a).
  - rewrite !app_assoc in H. apply app_inj_tail in H as [H _]. left. right. exists a, b. rewrite <- app_assoc in H. auto.
Qed.
Lemma stop_nl pats r n : good r -> (forall p, In p pats -> clean p /\ p <> []) -> first_stop pats r n -> first_stop pats (r ++ [b_nl]) n.
Proof.
  intros G P (A1 & A2 & A3). split; [rewrite app_length; lia|]. split.
  - intros j J. destruct (A2 j J) as [B1 B2]. split.
    + intro X. destruct (eol_nl _ _ G X); [auto|lia].
    + intros p I X. destruct (P p I) as [[C _] N]. exact (B2 p I (found_nl _ _ _ C N X)).
  - right. destruct A3 as [->|[[A3|A3]|(p & I & A3)]].
    + left. left. exists r, []. now rewrite app_nil_r.
    + left. left. now apply found_more.
    + left. right. now apply found_more.
    + right. exists p. split; [exact I|]. now apply found_more.
Qed.
Lemma simp_stop pats (f : str -> nat) p : (forall q, In q pats -> clean q /\ q <> []) -> (forall r, first_stop pats r (f r)) ->
  (forall s, span_ok s -> p s = ok_split (f (remaining s)) s) -> simp simL p p.
Proof.
  intros C F H. apply (simp_pick (fun r => Some (f r))).
  - intros r n X. injection X as <-. apply F.
  - intros r G. f_equal. eapply first_stop_unique; [apply F|]. apply stop_nl; auto.
  - exact H.
Qed.
Lemma simp_tlu p : clean p -> p <> [] -> length p <= 2 -> simp simL (take_line_until p) (take_line_until p).
Proof. intros C N L. apply (simp_stop [p] (tlu_pos p)); [intros q [<-|[]]; auto|intro; now apply tlu_first|reflexivity]. Qed.
Lemma simp_tlu2 p q : clean p -> p <> [] -> clean q -> q <> [] ->
  simp simL (take_line_until_one_of_two p q) (take_line_until_one_of_two p q).
Proof. intros C N D M. apply (simp_stop [p; q] (tlu2_pos p q)); [intros x [<-|[<-|[]]]; auto|intro; now apply tlu2_first|reflexivity]. Qed.
Lemma simp_tlu3 p q r : clean p -> p <> [] -> clean q -> q <> [] -> clean r -> r <> [] ->
  simp simL (take_line_until_one_of_three p q r) (take_line_until_one_of_three p q r).
Proof. intros C N D M F K. apply (simp_stop [p; q; r] (tlu3_pos p q r)); [intros x [<-|[<-|[<-|[]]]]; auto|intro; now apply tlu3_first|reflexivity]. Qed.
Lemma ne_same o o' : simL o o' -> non_empty o' = non_empty o.
Proof. intro H. unfold non_empty, sp_is_empty. now rewrite (simL_len _ _ H). Qed.
Lemma simp_tlu1_ p : simp simL p p -> simp simL (verify p non_empty) (verify p non_empty).
Proof. intro H. apply simp_verify; auto. exact ne_same. Qed.
Lemma simp_to_eol : simp simL take_until_end_of_line_or_input take_until_end_of_line_or_input.
Proof.
  apply (simp_stop [] eol_stop); [intros q []|apply eol_first|]. intros s O. exact (ProofMove2.takes_split _ _ _ O (take_until_eol_eq s O)).
Qed.
Lemma fp_nl (p : byte -> bool) r : p b_nl = true -> find_pos p (r ++ [b_nl]) = match find_pos p r with Some i => Some i | None => Some (length r) end.
Proof. intro P. induction r as [|b r IH]; cbn; [now rewrite P|]. destruct (p b); [reflexivity|]. rewrite IH. now destruct (find_pos p r). Qed.
Lemma find_skip (p : byte -> bool) r i : find_pos p r = Some i -> exists x y, r = x ++ y /\ length x = i /\ y <> [].
Proof.
  intro F. apply find_pos_some in F as [(x & F & _) _]. apply nth_error_split in F as (a & b & -> & L). exists a, (x :: b). repeat split; auto. discriminate.
Qed.
Lemma simp_not_line_ending : simp simL not_line_ending not_line_ending.
Proof.
  apply (simp_pick (fun l => match find_pos (fun b => beqb b b_cr || beqb b b_nl) l with
     | None => Some (length l)
     | Some i => if starts_with [b_cr] (skipn i l) && negb (starts_with crlf_str (skipn i l)) then None else Some i end)).
  - intros r n H. destruct (find_pos _ r) as [i|] eqn:F; [|now injection H as <-]. destruct (_ && _); [discriminate|]. injection H as <-.
    apply find_skip in F as (x & y & -> & L & _). rewrite app_length. lia.
  - intros r G. rewrite fp_nl by reflexivity. destruct (find_pos _ r) as [i|] eqn:F.
    + apply find_skip in F as (x & y & -> & L & Y). subst i. rewrite <- app_assoc, !skipn_app, !skipn_all, Nat.sub_diag. cbn [skipn app].
      destruct y as [|b [|c y]]; [congruence| |reflexivity].
      assert (X : beqb b_cr b = false) by (apply beqb_neq; intros <-; now destruct (G x)). unfold crlf_str. cbn [app starts_with]. rewrite X. reflexivity.
    + rewrite skipn_app, skipn_all, Nat.sub_diag. reflexivity.
  - intros s O. unfold not_line_ending. cbv zeta. rewrite remaining_len_eq by auto. destruct (find_pos _ _); [|reflexivity]. now destruct (_ && _).
Qed.
Lemma occ_found p l j : occ p l j <-> exists b, skipn j l = p ++ b.
Proof. unfold occ. apply starts_with_spec. Qed.
Lemma occ_nl p r j : clean p -> p <> [] -> occ p (r ++ [b_nl]) j <-> occ p r j.
Proof.
  intros C N. unfold occ. destruct (Nat.le_gt_cases j (length r)) as [L|L].
  - rewrite skipn_app. replace (j - length r) with 0 by lia. cbn [skipn]. now rewrite sw_nl.
  - rewrite !skipn_all2 by (try rewrite app_length; cbn; lia). reflexivity.
Qed.
Lemma offset_nl p r : clean p -> p <> [] -> offset_of p (r ++ [b_nl]) = offset_of p r.
Proof.
  intros C N. pose proof (offset_of_spec p r N) as A. pose proof (offset_of_spec p (r ++ [b_nl]) N) as B.
  destruct (offset_of p r) as [i|], (offset_of p (r ++ [b_nl])) as [j|]; auto.
  - f_equal. destruct A as [A1 A2], B as [B1 B2]. destruct (Nat.lt_trichotomy i j) as [X|[X|X]]; auto; exfalso.
    + apply (B2 i X). exact (proj2 (occ_nl p r i C N) A1).
    + apply (A2 j X). exact (proj1 (occ_nl p r j C N) B1).
  - destruct A as [A1 A2]. exfalso. apply (B i). exact (proj2 (occ_nl p r i C N) A1).
  - destruct B as [B1 B2]. exfalso. apply (A j). exact (proj1 (occ_nl p r j C N) B1).
Qed.
Lemma simp_take_until p : clean p -> p <> [] -> simp simL (take_until p) (take_until p).
Proof.
  intros C N. apply (simp_pick (offset_of p)).
  - intros r n H. pose proof (offset_of_spec p r N) as F. rewrite H in F. destruct F as [F _]. apply Nat.nlt_ge. intro L.
    unfold occ in F. rewrite skipn_all2 in F by lia. destruct p; [congruence|discriminate].
  - intros r _. now apply offset_nl.
  - reflexivity.
Qed.
Lemma simp_not_contains p q : simp simL q q -> simp simL (not_contains p q) (not_contains p q).
Proof.
  intros H k s s' Hs. eapply rel_bind; [eapply H; eassumption|]. intros t t' o o' Ht Ho. unfold pnot, offset.
  rewrite (simL_rem _ _ Ho). destruct (offset_of p (remaining o)); simpl; auto.
Qed.
Lemma simp_surround L R : clean L -> clean R -> R <> [] -> simp simL (surround_in_line1 L R) (surround_in_line1 L R).
Proof.
  intros CL CR N k s s' Hs. destruct (sim_ok _ _ _ Hs) as [O1 O2].
  assert (NR : no_nl R) by apply CR.
  pose proof (surround_spec L R s O1 N NR) as A. pose proof (surround_spec L R s' O2 N NR) as B.
  assert (FWD : forall c r, remaining s = L ++ c ++ R ++ r -> exists r', remaining s' = L ++ c ++ R ++ r' /\ (r' = r \/ r' = r ++ [b_nl])).
  { intros c r H. destruct (sim_rem _ _ _ Hs) as [->|(_ & _ & -> & _)]; [eauto|]. exists (r ++ [b_nl]). rewrite H, <- !app_assoc. auto. }
  assert (BWD : forall c r', remaining s' = L ++ c ++ R ++ r' -> exists r, remaining s = L ++ c ++ R ++ r /\ (r' = r \/ r' = r ++ [b_nl])).
  { intros c r' H. destruct (sim_rem _ _ _ Hs) as [X|(_ & _ & X & _)]; [rewrite <- X; eauto|]. rewrite X in H.
    destruct r' as [|x r' _] using rev_ind.
    - exfalso. rewrite app_nil_r in H. destruct (exists_last N) as (R' & x & Y). rewrite Y, !app_assoc in H. apply app_inj_tail in H as [_ H].
      apply NR. rewrite Y, H. apply in_or_app. right. now left.
    - rewrite !app_assoc in H. apply app_inj_tail in H as [H ->]. exists r'. rewrite H, <- !app_assoc. auto. }
  assert (FN : forall c r r' j, (r' = r \/ r' = r ++ [b_nl]) -> found R (c ++ R ++ r') j <-> found R (c ++ R ++ r) j).
  { intros c r r' j [->| ->]; [tauto|]. rewrite !app_assoc. rewrite <- (app_assoc c R r). split; [intro X; now apply found_nl in X|apply found_more]. }
  destruct (surround_in_line1 L R s) as [t o| | |], (surround_in_line1 L R s') as [t' o'| | |]; try contradiction; try exact I.
  - destruct A as (c & r & A1 & A2 & A3 & A4 & A5 & A6), B as (c' & r' & B1 & B2 & B3 & B4 & B5 & B6).
    destruct (BWD _ _ B1) as (r2 & B7 & B8).
    assert (Q : c ++ R ++ r = c' ++ R ++ r2) by (apply (app_inv_head L); congruence).
    assert (LC : length c = length c').
    { destruct (Nat.lt_trichotomy (length c) (length c')) as [X|[X|X]]; auto; exfalso.
      - apply (B4 (length c)).
        + destruct c; [congruence|]. cbn in *. lia.
        + apply (FN c' r2 r' _ B8). rewrite <- Q. exists c, r. auto.
      - apply (A4 (length c')).
        + destruct c'; [congruence|]. cbn in *. lia.
        + rewrite Q. exists c', r2. auto. }
    assert (M : length L + length c + length R <= length (remaining s)) by (rewrite A1, !app_length; lia).
    destruct A5 as [A5 ->], B5 as [B5 ->]. rewrite A6, B6, <- LC.
    assert (S1 : Span (sp_inner s) (sp_start s + (length L + length c + length R)) (sp_end s) (sp_depth s) = advance_start_by (length L + length c + length R) s).
    { unfold advance_start_by. rewrite <- remaining_len_eq in M by auto. unfold remaining_len in M. destruct (Nat.leb_spec (sp_start s) (sp_end s)); [|destruct O1; lia].
      destruct (Nat.ltb_spec (sp_end s) (sp_start s + (length L + length c + length R))); [lia|reflexivity]. }
    assert (S2 : Span (sp_inner s') (sp_start s' + (length L + length c + length R)) (sp_end s') (sp_depth s') = advance_start_by (length L + length c + length R) s').
    { unfold advance_start_by. rewrite LC in *. rewrite <- remaining_len_eq in B5 by auto. unfold remaining_len in B5. destruct (Nat.leb_spec (sp_start s') (sp_end s')); [|destruct O2; lia].
      destruct (Nat.ltb_spec (sp_end s') (sp_start s' + (length L + length c' + length R))); [lia|reflexivity]. }
    rewrite S1, S2. split; [now apply sim_adv|].
    assert (Z : remaining s <> []) by (rewrite A1; destruct L; [destruct c; [congruence|discriminate]|discriminate]).
    destruct (sim_here _ _ _ Hs Z) as (C & LT & _). rewrite <- remaining_len_eq, (rem_end _ _ _ Hs) in M by auto. rewrite C.
    destruct Hs as (E1 & E2 & H1 & H2 & D & _). repeat split; cbn [sp_start sp_end sp_inner sp_depth]; auto; try lia.
  - destruct A as (c & r & A1 & A2 & A3 & _). destruct (FWD _ _ A1) as (r' & B1 & _). exact (B _ _ B1 A2 A3).
  - destruct B as (c & r & A1 & A2 & A3 & _). destruct (BWD _ _ A1) as (r' & B1 & _). exact (A _ _ B1 A2 A3).
Qed.
Lemma simp_tlw1 c : c <> b_nl -> c <> b_cr -> simp simL (take_line_while1 (pchar c)) (take_line_while1 (pchar c)).
Proof.
  intros C1 C2. apply simp_tlu1_. apply (simp_pick (fun r => Some (count_while (beqb c) r))).
  - intros r n H. injection H as <-. apply count_while_le.
  - intros r _. rewrite cw_nl; [reflexivity|]. now apply beqb_neq.
  - intros t O. destruct (take_char_spec c t O C1 C2) as (n & T & r & X1 & X2). rewrite (ProofMove2.takes_split _ _ _ O T). f_equal.
    rewrite X1. clear -X2. induction n as [|n IH]; simpl.
    + destruct r as [|x r]; [reflexivity|]. simpl. destruct (beqb c x) eqn:B; [|reflexivity]. apply beqb_eq in B. subst. exfalso. now apply (X2 r).
    + rewrite beqb_refl. now rewrite <- IH.
Qed.
Lemma stuck_line_ending : stuck line_ending.
Proof. apply stuck_palt; now apply stuck_tag. Qed.
Lemma stuck_blank : stuck blank_line.
Proof.
  apply stuck_preceded2; [exact keep_bol|]. apply stuck_palt.
  - apply stuck_terminated, stuck_while1.
  - intros s N. apply (stuck_keep _ _ keep_space0); [|exact N]. intro a. apply stuck_bind, stuck_line_ending.
Qed.
Lemma blanks_end s t o : space1 s = Err -> space0 s = Ok t o -> remaining s <> [] -> span_ok s -> remaining t <> [].
Proof.
  unfold space1, space0, take_while1, take_while0, ok_split. cbv zeta. intros H1 H2 N O.
  destruct (Nat.eqb_spec (count_while is_space (remaining s)) 0) as [Z|]; [|discriminate]. rewrite Z in H2. injection H2 as <- _.
  destruct (advance_moved 0 s O ltac:(lia)) as [_ ->]. cbn [sp_inner sp_start]. destruct s as [i a b d]. unfold remaining in *. cbn [sp_start sp_end sp_inner] in *. now rewrite Nat.add_0_r.
Qed.
Lemma space1_end s t o : space1 s = Ok t o -> span_ok s -> space0 s = Ok t o.
Proof. unfold space1, space0, take_while1, take_while0. cbv zeta. destruct (_ =? 0); [discriminate|auto]. Qed.
Lemma simp_blank : simp any blank_line blank_line.
Proof.
  apply (simp_lined any (fun s _ => palt (terminated space1 end_of_line_or_input) (terminated space0 line_ending) s) (fun s _ => palt (terminated space1 end_of_line_or_input) (terminated space0 line_ending) s)).
  - intros s _ N. apply (stuck_palt _ _ (stuck_terminated _ _ (stuck_while1 _))); [|exact N]. apply stuck_keep; [exact keep_space0|]. intro. apply stuck_bind, stuck_line_ending.
  - intros s _ N. apply (stuck_palt _ _ (stuck_terminated _ _ (stuck_while1 _))); [|exact N]. apply stuck_keep; [exact keep_space0|]. intro. apply stuck_bind, stuck_line_ending.
  - intros k s s' _ _ Hs N. destruct (sim_ok _ _ _ Hs) as [O1 O2].
    pose proof (simp_terminated _ _ _ _ _ _ (simp_any _ _ _ simp_space1) simp_eoi _ _ _ Hs) as A.
    unfold palt. destruct (terminated space1 end_of_line_or_input s) eqn:X, (terminated space1 end_of_line_or_input s') eqn:X'; simpl in A; try contradiction; try exact A; try exact I.
    2: { destruct (terminated space0 line_ending s); exact I. }
    pose proof (simp_space0 _ _ _ Hs) as B. unfold terminated in *. destruct (space0 s) as [t o| | |] eqn:Y, (space0 s') as [t' o'| | |] eqn:Y'; simpl in B; try contradiction; try exact I.
    2: { unfold space0, take_while0, ok_split in Y'. discriminate Y'. }
    destruct B as [Ht Ho]. cbn [bind]. eapply rel_bind; [|intros; apply rel_ok; [eassumption|exact I]].
    apply rel_line_ending; [exact Ht|]. left. intro Z.
    destruct (space1 s) as [v u| | |] eqn:Q.
    + rewrite (space1_end _ _ _ Q O1) in Y. injection Y as <- <-. cbn [bind] in X. unfold end_of_line_or_input in X.
      rewrite empty_eq in X by (apply (sim_ok _ _ _ Ht)). rewrite Z in X. discriminate.
    + exact (blanks_end _ _ _ Q Y N O1 Z).
    + unfold space1, take_while1 in Q. cbv zeta in Q. destruct (_ =? 0); discriminate.
    + unfold space1, take_while1 in Q. cbv zeta in Q. destruct (_ =? 0); discriminate.
Qed.
Lemma simp_rest_of_line : simp simL rest_of_line rest_of_line.
Proof.
  intros k s s' Hs. eapply rel_bind; [eapply simp_to_eol; eassumption|]. intros t t' o o' Ht Ho. eapply rel_bind; [eapply simp_eoi; eassumption|].
  intros. now apply rel_ok.
Qed.
(** A line where there is something left. *)
Lemma rel_any_line k s s' : sim k s s' -> remaining s <> [] -> rel k simL (any_line s) (any_line s').
Proof.
  intros Hs N. eapply rel_bind; [apply rel_bol; eauto|]. intros t t' o o' Ht Ho. eapply rel_bind; [eapply simp_rest_of_line; eassumption|].
  intros. now apply rel_ok.
Qed.
Lemma simpL_cow : simpL eq cow_str cow_str.
Proof. intros s s' Hs. apply rel_ok; [apply Hs|]. symmetry. now apply simL_rem. Qed.
Lemma simpL_count : simpL eq count_remaining_bytes count_remaining_bytes.
Proof. intros s s' Hs. apply rel_ok; [apply Hs|]. symmetry. now apply simL_len. Qed.
Lemma keep_eoi : keep end_of_line_or_input.
Proof. intros s N. unfold end_of_line_or_input. destruct (sp_is_empty s); [exact N|]. destruct (stuck_line_ending s N) as [->| ->]; exact I. Qed.
Lemma stuck_recognize1 {A} (p : parser A) : stuck p -> stuck (recognize p).
Proof. intros H s N. unfold recognize. destruct (H s N) as [->| ->]; [now left|now right]. Qed.
Lemma stuck_ne p : (forall s, remaining s = [] -> exists n, p s = ok_split 0 s /\ n = 0) -> stuck (verify p non_empty).
Proof.
  intros H s N. destruct (H s N) as (n & P & _). unfold verify. rewrite P. unfold ok_split. cbn [bind]. unfold non_empty, sp_is_empty.
  replace (remaining_len (advance_end_by 0 s)) with 0; [now left|]. unfold remaining_len, advance_end_by. cbn [sp_start sp_end]. destruct (_ <=? _); lia.
Qed.
Lemma stuck_tlu1 p : stuck (take_line_until1 p).
Proof. apply stuck_ne. intros s N. exists 0. split; [|reflexivity]. unfold take_line_until. now rewrite N. Qed.
Lemma stuck_tlu21 p q : stuck (take_line_until_one_of_two1 p q).
Proof. apply stuck_ne. intros s N. exists 0. split; [|reflexivity]. unfold take_line_until_one_of_two. now rewrite N. Qed.
Lemma stuck_tlu31 p q r : stuck (take_line_until_one_of_three1 p q r).
Proof. apply stuck_ne. intros s N. exists 0. split; [|reflexivity]. unfold take_line_until_one_of_three. now rewrite N. Qed.
Lemma stuck_not_contains p q : stuck q -> stuck (not_contains p q).
Proof. apply stuck_bind. Qed.
Lemma stuck_separated_pair {A B C} (p : parser A) (q : parser B) (r : parser C) : stuck p -> stuck (separated_pair p q r).
Proof. apply stuck_bind. Qed.
Lemma stuck_delimited {A B C} (p : parser A) (q : parser B) (r : parser C) : stuck p -> stuck (delimited p q r).
Proof. apply stuck_bind. Qed.
Lemma keep_map_count : keep (map_parser space0 count_remaining_bytes).
Proof. intros s N. unfold map_parser, space0, take_while0, ok_split, count_remaining_bytes. cbn [bind keepr]. now apply adv_nil. Qed.
Lemma stuck_while_char c : stuck (take_line_while1 (pchar c)).
Proof.
  intros s N. unfold take_line_while1, verify, take_line_while, recognize, many0. cbn [many0_fuel].
  assert (X : stuckr (single_char (pchar c) s)).
  { unfold single_char, pnot. pose proof (keep_eoi s N) as K. destruct (end_of_line_or_input s); cbn [bind keepr] in *; [now left| |contradiction|now right].
    rewrite (ltac:(unfold pchar; rewrite N; reflexivity) : pchar c s = Err). now left. }
  destruct X as [->| ->]; [|now right]. cbn [bind]. rewrite Nat.ltb_irrefl, Nat.sub_diag. cbn [bind]. unfold non_empty, sp_is_empty.
  replace (remaining_len (advance_end_by 0 s)) with 0; [now left|]. unfold remaining_len, advance_end_by. cbn [sp_start sp_end]. destruct (_ <=? _); lia.
Qed.
End End.

Create HintDb stuck.
#[global] Hint Resolve stuck_blank stuck_line_ending stuck_word_ stuck_tlu1 stuck_tlu21 stuck_tlu31 stuck_while_char stuck_pchar stuck_one_of stuck_while1 : stuck.
#[global] Hint Resolve keep_eoi keep_map_count keep_space0 keep_bol : stuck.
Ltac stk := lazymatch goal with
  | |- stuck (located_p _) => apply stuck_located; stk
  | |- stuck (pmap _ _) => apply stuck_pmap; stk
  | |- stuck (value _ _) => apply stuck_value; stk
  | |- stuck (verify _ _) => first [solve [auto with stuck nocore] | apply stuck_verify; stk]
  | |- stuck (map_opt _ _) => apply stuck_map_opt; stk
  | |- stuck (map_parser _ _) => apply stuck_map_parser; stk
  | |- stuck (delimited _ _ _) => first [solve [apply stuck_delimited; stk] | unfold delimited; apply stuck_preceded2; [kp|stk]]
  | |- stuck (preceded _ _) => first [solve [apply stuck_preceded; stk] | apply stuck_preceded2; [kp|stk]]
  | |- stuck (pair _ _) => first [solve [apply stuck_pair; stk] | apply stuck_pair2; [kp|stk]]
  | |- stuck (terminated _ _) => apply stuck_terminated; stk
  | |- stuck (separated_pair _ _ _) => apply stuck_separated_pair; stk
  | |- stuck (many1 _) => apply stuck_many1; stk
  | |- stuck (separated_list1 _ _) => apply stuck_sep1; stk
  | |- stuck (deeper _) => apply stuck_deeper; stk
  | |- stuck (peek _) => apply stuck_peek; stk
  | |- stuck (palt _ _) => apply stuck_palt; stk
  | |- stuck (alt _) => apply stuck_alt; repeat (apply Forall_cons; [stk|]); apply Forall_nil
  | |- stuck (tag _) => apply stuck_tag; discriminate
  | |- stuck (surround_in_line1 _ _) => apply stuck_surround; discriminate
  | |- stuck (not_contains _ _) => apply stuck_not_contains; stk
  | |- stuck (fun s => bind (@?p s) _) => first [assumption | solve [apply stuck_bind; stk] | apply stuck_keep; [kp|intro; stk]]
  | |- _ => first [assumption | solve [auto with stuck nocore] | solve [match goal with H : _ |- _ => apply H end]]
  end
with kp := lazymatch goal with
  | |- keep (opt _) => apply keep_opt; stk
  | |- keep (many0 _) => apply keep_many0; stk
  | |- keep (pnot _) => apply keep_pnot; stk
  | |- keep (pmap _ _) => apply keep_pmap; kp
  | |- keep (peek _) => apply keep_peek; kp
  | |- keep (verify _ _) => apply keep_verify; kp
  | |- keep (fun s => Ok s _) => apply keep_ok
  | |- keep (fun s => bind (@?p s) _) => apply keep_bind; [kp|intro; kp]
  | |- _ => first [assumption | solve [auto with stuck nocore]]
  end.
