(** List and slice lemmas. *)
From Verif Require Import Base ModelSpan ModelComb SpecDoc.

Lemma skipn_skipn {A} a b (l : list A) : skipn a (skipn b l) = skipn (a + b) l.
Proof.
  revert l. induction b; intro l; simpl; [now rewrite Nat.add_0_r|].
  rewrite Nat.add_succ_r. destruct l; simpl; [now rewrite skipn_nil | apply IHb].
Qed.

Lemma nth_error_firstn {A} n k (l : list A) :
  k < n -> nth_error (firstn n l) k = nth_error l k.
Proof.
  revert k l. induction n; intros k l H; [lia|].
  destruct l; [reflexivity|]. destruct k; [reflexivity|]. simpl. apply IHn. lia.
Qed.

Lemma nth_error_skipn {A} n k (l : list A) : nth_error (skipn n l) k = nth_error l (n + k).
Proof.
  revert l. induction n; intro l; simpl; auto.
  destruct l; [destruct k; reflexivity | apply IHn].
Qed.

Lemma slice_length {A} i j (l : list A) :
  j <= length l -> length (slice i j l) = j - i.
Proof. intro H. unfold slice. rewrite firstn_length, skipn_length. lia. Qed.

Lemma slice_app {A} i j k (l : list A) :
  i <= j -> j <= k -> slice i k l = slice i j l ++ slice j k l.
Proof.
  intros H1 H2. unfold slice.
  replace (k - i) with ((j - i) + (k - j)) by lia.
  rewrite <- (firstn_skipn (j - i) (firstn (j - i + (k - j)) (skipn i l))).
  f_equal.
  - rewrite firstn_firstn. f_equal. lia.
  - rewrite skipn_firstn_comm. rewrite skipn_skipn.
    replace (j - i + (k - j) - (j - i)) with (k - j) by lia.
    replace (j - i + i) with j by lia. reflexivity.
Qed.

Lemma slice_slice {A} a b i j (l : list A) :
  a + j <= b -> slice i j (slice a b l) = slice (a + i) (a + j) l.
Proof.
  intro H. unfold slice. rewrite skipn_firstn_comm, firstn_firstn, skipn_skipn.
  f_equal; [lia | f_equal; lia].
Qed.

Lemma slice_nil {A} i j (l : list A) : j <= i -> slice i j l = [].
Proof. intro H. unfold slice. replace (j - i) with 0 by lia. reflexivity. Qed.

Lemma slice_all {A} (l : list A) : slice 0 (length l) l = l.
Proof. unfold slice. simpl. rewrite Nat.sub_0_r. apply firstn_all. Qed.

Lemma nth_error_slice {A} i j k (l : list A) :
  i + k < j -> nth_error (slice i j l) k = nth_error l (i + k).
Proof.
  intro H. unfold slice.
  rewrite nth_error_firstn by lia. apply nth_error_skipn.
Qed.

Lemma firstn_slice {A} n i j (l : list A) :
  i + n <= j -> firstn n (slice i j l) = slice i (i + n) l.
Proof. intro H. unfold slice. rewrite firstn_firstn. f_equal. lia. Qed.

Lemma skipn_slice {A} n i j (l : list A) :
  skipn n (slice i j l) = slice (i + n) j l.
Proof.
  unfold slice. rewrite skipn_firstn_comm, skipn_skipn. f_equal; [lia | f_equal; lia].
Qed.

Lemma slice_cons {A} i j (l : list A) b r :
  slice i j l = b :: r -> nth_error l i = Some b /\ i < j /\ r = slice (S i) j l.
Proof.
  intro H.
  assert (Hl : i < j).
  { destruct (le_lt_dec j i); [rewrite slice_nil in H by lia; discriminate | lia]. }
  repeat split; auto.
  - rewrite <- (Nat.add_0_r i). rewrite <- (nth_error_slice i j 0) by lia.
    rewrite H. reflexivity.
  - replace (S i) with (i + 1) by lia. rewrite <- skipn_slice, H. reflexivity.
Qed.


(** * [count_while], [find_pos] *)

Lemma count_while_le {A} (p : A -> bool) l : count_while p l <= length l.
Proof. induction l; simpl; [lia | destruct (p a); lia]. Qed.

Lemma count_while_forall {A} (p : A -> bool) l :
  Forall (fun x => p x = true) (firstn (count_while p l) l).
Proof. induction l; simpl; [constructor | destruct (p a) eqn:E; simpl; auto]. Qed.

Lemma count_while_stop {A} (p : A -> bool) l x :
  nth_error l (count_while p l) = Some x -> p x = false.
Proof.
  induction l; simpl; [discriminate|].
  destruct (p a) eqn:E; simpl; [apply IHl | intro H; congruence].
Qed.

Lemma count_while_nth {A} (p : A -> bool) l k :
  k < count_while p l -> exists x, nth_error l k = Some x /\ p x = true.
Proof.
  revert k. induction l; simpl; intros k H; [lia|].
  destruct (p a) eqn:E; [|lia]. destruct k; simpl; [eauto|]. apply IHl. lia.
Qed.

Lemma count_while_zero {A} (p : A -> bool) l :
  count_while p l = 0 -> l = [] \/ exists x r, l = x :: r /\ p x = false.
Proof. destruct l; simpl; auto. destruct (p a) eqn:E; [discriminate | right; eauto]. Qed.

Lemma find_pos_some {A} (p : A -> bool) l i :
  find_pos p l = Some i ->
  (exists x, nth_error l i = Some x /\ p x = true) /\
  Forall (fun x => p x = false) (firstn i l).
Proof.
  revert i. induction l; simpl; intros i H; [discriminate|].
  destruct (p a) eqn:E.
  - injection H as <-. simpl. split; eauto.
  - destruct (find_pos p l) as [k|]; [|discriminate]. injection H as <-.
    destruct (IHl k eq_refl) as [H1 H2]. simpl. split; auto.
Qed.

Lemma find_pos_none {A} (p : A -> bool) l :
  find_pos p l = None -> Forall (fun x => p x = false) l.
Proof.
  induction l; simpl; intro H; [constructor|].
  destruct (p a) eqn:E; [discriminate|].
  destruct (find_pos p l); [discriminate|]. auto.
Qed.

Lemma find_pos_lt {A} (p : A -> bool) l i : find_pos p l = Some i -> i < length l.
Proof.
  intro H. apply find_pos_some in H as [[x [H _]] _].
  apply nth_error_Some. congruence.
Qed.

(** * Positions *)

Lemma positions_from_in {A} (p : A -> bool) l i k :
  In k (positions_from p i l) <->
  i <= k /\ exists x, nth_error l (k - i) = Some x /\ p x = true.
Proof.
  revert i. induction l; simpl; intro i.
  - split; [tauto | intros [_ [x [H _]]]; destruct (k - i); discriminate].
  - assert (HS : i < k -> nth_error (a :: l) (k - i) = nth_error l (k - S i)).
    { intro. replace (k - i) with (S (k - S i)) by lia. reflexivity. }
    destruct (p a) eqn:E; simpl; rewrite IHl; split.
    + intros [<- | [H1 [x [H2 H3]]]].
      * split; [lia|]. rewrite Nat.sub_diag. simpl. eauto.
      * split; [lia|]. exists x. rewrite HS by lia. auto.
    + intros [H1 [x [H2 H3]]]. destruct (Nat.eq_dec i k); [auto|right].
      split; [lia|]. exists x. rewrite <- HS by lia. auto.
    + intros [H1 [x [H2 H3]]]. split; [lia|]. exists x. rewrite HS by lia. auto.
    + intros [H1 [x [H2 H3]]]. destruct (Nat.eq_dec i k).
      * subst. rewrite Nat.sub_diag in H2. simpl in H2. congruence.
      * split; [lia|]. exists x. rewrite <- HS by lia. auto.
Qed.

Lemma positions_in {A} (p : A -> bool) l k :
  In k (positions p l) <-> exists x, nth_error l k = Some x /\ p x = true.
Proof.
  unfold positions. rewrite positions_from_in, Nat.sub_0_r. split; [tauto | split; [lia|tauto]].
Qed.

(** Ascending lists. *)
Inductive asc : list nat -> Prop :=
| asc_nil : asc []
| asc_cons k l : Forall (fun j => k < j) l -> asc l -> asc (k :: l).

Lemma positions_from_asc {A} (p : A -> bool) l i : asc (positions_from p i l).
Proof.
  revert i. induction l; simpl; intro i; [constructor|].
  destruct (p a); auto. constructor; auto.
  apply Forall_forall. intros j Hj. apply positions_from_in in Hj. lia.
Qed.

Lemma positions_asc {A} (p : A -> bool) l : asc (positions p l).
Proof. apply positions_from_asc. Qed.

(** * Occurrences of a pattern *)

Definition occ (pat l : str) (k : nat) : Prop := starts_with pat (skipn k l) = true.

Lemma occ_iff pat l k :
  occ pat l k -> slice k (k + length pat) l = pat /\ (pat <> [] -> k + length pat <= length l).
Proof.
  unfold occ, slice. rewrite starts_with_spec. intros [r H].
  replace (k + length pat - k) with (length pat) by lia.
  rewrite H, firstn_app, Nat.sub_diag, firstn_all. simpl. rewrite app_nil_r.
  split; auto. intro Hp.
  assert (length (skipn k l) = length pat + length r) by (rewrite H; apply app_length).
  rewrite skipn_length in *. destruct pat; [congruence|]. simpl in *. lia.
Qed.

Lemma slice_occ pat l k :
  slice k (k + length pat) l = pat -> occ pat l k.
Proof.
  unfold slice, occ. intro H. replace (k + length pat - k) with (length pat) in H by lia.
  apply starts_with_spec. exists (skipn (length pat) (skipn k l)).
  rewrite <- H at 1. symmetry. apply firstn_skipn.
Qed.

Lemma occ_first pat l k b p :
  pat = b :: p -> occ pat l k -> nth_error l k = Some b.
Proof.
  unfold occ. intros -> H. apply starts_with_spec in H as [r H].
  rewrite <- (Nat.add_0_r k), <- nth_error_skipn, H. reflexivity.
Qed.

Lemma absent_no_occ pat l : (forall k, ~ occ pat l k) -> absent pat l.
Proof.
  intros H a b ->. apply (H (length a)). unfold occ.
  rewrite skipn_app, Nat.sub_diag, skipn_all. simpl. apply starts_with_spec. eauto.
Qed.

Lemma no_occ_absent pat l k : absent pat l -> ~ occ pat l k.
Proof.
  intros H O. unfold occ in O. apply starts_with_spec in O as [r O].
  apply (H (firstn k l) r). rewrite <- O. symmetry. apply firstn_skipn.
Qed.

Lemma offset_loop_spec pat bytes poss :
  asc poss -> (forall k, occ pat bytes k -> In k poss) -> pat <> [] ->
  match offset_loop pat bytes poss with
  | Some k => occ pat bytes k /\ forall j, j < k -> ~ occ pat bytes j
  | None => forall j, ~ occ pat bytes j
  end.
Proof.
  intros Hasc Hin Hpat.
  assert (HP : forall l, asc l -> (forall k, occ pat bytes k -> In k l) ->
    match offset_loop pat bytes l with
    | Some k => occ pat bytes k /\ forall j, j < k -> ~ occ pat bytes j
    | None => forall j, ~ occ pat bytes j
    end).
  { clear - Hpat. induction l as [|k l IH]; simpl; intros Ha Hi.
    - intros j Hj. apply (Hi j Hj).
    - inversion Ha as [|? ? H1 H2]; subst. rewrite Forall_forall in H1.
      destruct (length bytes <? k + length pat) eqn:E1.
      + apply Nat.ltb_lt in E1. intros j Hj.
        destruct (occ_iff _ _ _ Hj) as [_ Hl]. specialize (Hl Hpat).
        destruct (Hi j Hj) as [->|Hin]; [lia|]. specialize (H1 _ Hin). lia.
      + destruct (str_eqb (slice k (k + length pat) bytes) pat) eqn:E2.
        * apply str_eqb_eq in E2. split; [now apply slice_occ|].
          intros j Hj Ho. destruct (Hi j Ho) as [->|Hin]; [lia|].
          specialize (H1 _ Hin). lia.
        * apply IH; auto. intros j Hj. destruct (Hi j Hj) as [->|Hin]; auto.
          exfalso. apply str_eqb_neq in E2. apply E2. now apply occ_iff. }
  now apply HP.
Qed.

Lemma offset_of_spec pat bytes :
  pat <> [] ->
  match offset_of pat bytes with
  | Some k => occ pat bytes k /\ forall j, j < k -> ~ occ pat bytes j
  | None => forall j, ~ occ pat bytes j
  end.
Proof.
  intro Hp. apply offset_loop_spec; auto; [apply positions_asc|].
  intros k Hk. destruct pat as [|b p]; [congruence|]. simpl.
  apply positions_in. exists b. split; [eapply occ_first; eauto | apply beqb_refl].
Qed.
