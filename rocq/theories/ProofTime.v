(** The table of the timekeeper tells which calls returned. *)
From Coq Require Import Permutation.
From Verif Require Import Base ModelElem ModelTime SpecTime.

Lemma call_forall (P : call -> Prop) : (forall c x e i, Forall P i -> P (Call c x e i)) -> forall c, P c.
Proof.
  intro H. fix IH 1. intros [c x e i]. apply H. induction i as [|a i I]; constructor; [apply IH|exact I].
Qed.

Definition put (t : list (str * (nat * N))) (e : str * N) : list (str * (nat * N)) := record (fst e) (snd e) t.

Lemma run_step c : forall k, run_call k c = Keeper (k_on k) (if k_on k then fold_left put (returned c) (k_table k) else k_table k).
Proof.
  induction c as [ctx x e i IH] using call_forall. intro k. cbn [run_call returned].
  assert (F : fold_left (fun k c => run_call k c) i k = Keeper (k_on k) (if k_on k then fold_left put (flat_map returned i) (k_table k) else k_table k)).
  { revert k. induction IH as [|c i H _ IHi]; intro k; cbn [fold_left flat_map].
    - destruct k as [[|] t]; reflexivity.
    - rewrite H, IHi. cbn [k_on k_table]. destruct (k_on k); [|reflexivity]. now rewrite fold_left_app. }
  rewrite F. cbn [k_on k_table]. rewrite fold_left_app. destruct e, (k_on k); reflexivity.
Qed.
Lemma runs_step cs : forall k, run_calls k cs = Keeper (k_on k) (if k_on k then fold_left put (flat_map returned cs) (k_table k) else k_table k).
Proof.
  unfold run_calls. induction cs as [|c cs IH]; intro k; cbn [fold_left flat_map]; [destruct k as [[|] t]; reflexivity|].
  rewrite run_step, IH. cbn [k_on k_table]. destruct (k_on k); [|reflexivity]. now rewrite fold_left_app.
Qed.

Lemma of_app c l m : of_label c (l ++ m) = of_label c l ++ of_label c m.
Proof. unfold of_label. now rewrite filter_app, map_app. Qed.
Lemma sum_app l m : fold_right N.add 0%N (l ++ m) = (fold_right N.add 0 l + fold_right N.add 0 m)%N.
Proof. induction l as [|a l IH]; cbn [app fold_right]; [reflexivity|]. rewrite IH. lia. Qed.
Lemma times_last c l d x : times c (l ++ [(d, x)]) = times c l + (if str_eqb d c then 1 else 0).
Proof. unfold times. rewrite of_app, app_length. unfold of_label at 2. cbn [filter fst]. now destruct (str_eqb d c). Qed.
Lemma total_last c l d x : total c (l ++ [(d, x)]) = (total c l + (if str_eqb d c then x else 0))%N.
Proof. unfold total. rewrite of_app, sum_app. unfold of_label at 2. cbn [filter fst]. destruct (str_eqb d c); cbn; lia. Qed.
Lemma total_none c l : times c l = 0 -> total c l = 0%N.
Proof. unfold times, total. destruct (of_label c l); [reflexivity|discriminate]. Qed.

(** The table after one more call. *)
Lemma record_other c x d n y t : c <> d -> (In (d, (n, y)) (record c x t) <-> In (d, (n, y)) t).
Proof.
  intro N. induction t as [|[e [m z]] t IH]; cbn [record In].
  - split; [intros [H|[]]; congruence|intros []].
  - destruct (str_eqb e c) eqn:Q; cbn [In].
    + apply str_eqb_eq in Q. subst e. split; (intros [H|H]; [congruence|now right]).
    + now rewrite IH.
Qed.
Lemma record_keys c x t : map fst (record c x t) = map fst t \/ (~ In c (map fst t) /\ map fst (record c x t) = map fst t ++ [c]).
Proof.
  induction t as [|[e [m z]] t IH]; cbn [record map fst]; [right; now split|].
  destruct (str_eqb e c) eqn:Q; cbn [map fst]; [now left|]. apply str_eqb_neq in Q.
  destruct IH as [->|[N ->]]; [now left|]. right. split; [|reflexivity]. intros [H|H]; auto.
Qed.
Lemma record_same c x n y t : NoDup (map fst t) -> In (c, (n, y)) t -> In (c, (n + 1, (y + x)%N)) (record c x t).
Proof.
  induction t as [|[e [m z]] t IH]; intros D H; [destruct H|]. cbn [record]. cbn [map fst] in D. inversion D as [|? ? D1 D2]; subst.
  destruct (str_eqb e c) eqn:Q.
  - apply str_eqb_eq in Q. subst e. destruct H as [H|H]; [left; congruence|]. destruct D1. now apply (in_map fst) in H.
  - destruct H as [H|H]; [injection H as -> -> ->; now rewrite str_eqb_refl in Q|]. right. now apply IH.
Qed.
Lemma record_new c x t : ~ In c (map fst t) -> In (c, (1, x)) (record c x t).
Proof.
  induction t as [|[e [m z]] t IH]; intro N; cbn [record]; [now left|]. destruct (str_eqb e c) eqn:Q.
  - apply str_eqb_eq in Q. destruct N. now left.
  - right. apply IH. intro H. apply N. now right.
Qed.
Lemma record_nodup c x t : NoDup (map fst t) -> NoDup (map fst (record c x t)).
Proof.
  intro D. destruct (record_keys c x t) as [->|[N ->]]; [exact D|].
  apply (Permutation_NoDup (Permutation_cons_append (map fst t) c)). now constructor.
Qed.
Lemma one_entry {A B} (t : list (A * B)) c a b : NoDup (map fst t) -> In (c, a) t -> In (c, b) t -> a = b.
Proof.
  induction t as [|[e v] t IH]; intros D H1 H2; [destruct H1|]. cbn [map fst] in D. inversion D as [|? ? D1 D2]; subst.
  destruct H1 as [H1|H1], H2 as [H2|H2]; [congruence| | |now apply IH].
  - injection H1 as -> ->. destruct D1. now apply (in_map fst) in H2.
  - injection H2 as -> ->. destruct D1. now apply (in_map fst) in H1.
Qed.
Lemma tells_put l t e : tells l t -> tells (l ++ [e]) (put t e).
Proof.
  destruct e as [c x]. intros [D H]. unfold put. cbn [fst snd]. split; [now apply record_nodup|].
  intros d n y. rewrite times_last, total_last. destruct (str_eqb c d) eqn:Q.
  - apply str_eqb_eq in Q. subst d.
    assert (Z : In (c, (times c l + 1, (total c l + x)%N)) (record c x t)).
    { destruct (times c l) as [|n'] eqn:T.
      - rewrite (total_none _ _ T), N.add_0_l. apply record_new. intro I. apply in_map_iff in I as ([c' [m z]] & E & I). cbn in E. subst c'.
        apply H in I. lia.
      - rewrite <- T. apply record_same; [exact D|]. apply H. repeat split. lia. }
    split.
    + intro I. pose proof (one_entry _ _ _ _ (record_nodup c x t D) I Z) as E. injection E as -> ->. repeat split. lia.
    + intros (_ & -> & ->). exact Z.
  - apply str_eqb_neq in Q. rewrite record_other by exact Q. rewrite Nat.add_0_r, N.add_0_r. apply H.
Qed.
Lemma tells_nil : tells [] [].
Proof. split; [constructor|]. intros c n x. split; [intros []|]. intros (H & -> & _). cbn in H. lia. Qed.
Lemma tells_all m : forall l t, tells l t -> tells (l ++ m) (fold_left put m t).
Proof.
  induction m as [|e m IH]; intros l t H; cbn [fold_left]; [now rewrite app_nil_r|].
  replace (l ++ e :: m) with ((l ++ [e]) ++ m) by now rewrite <- app_assoc. now apply IH, tells_put.
Qed.
Lemma runs_tell cs k l : k_on k = true -> tells l (k_table k) -> tells (l ++ flat_map returned cs) (k_table (run_calls k cs)).
Proof. intros O H. rewrite runs_step. cbn [k_table]. rewrite O. now apply tells_all. Qed.

(** Two tables that tell the same. *)
Lemma filter_perm {A} (f : A -> bool) l m : Permutation l m -> Permutation (filter f l) (filter f m).
Proof.
  induction 1; cbn [filter]; auto.
  - now destruct (f x); [constructor|].
  - destruct (f x), (f y); try apply perm_swap; try apply Permutation_refl.
  - eapply perm_trans; eauto.
Qed.
Lemma sum_perm l m : Permutation l m -> fold_right N.add 0%N l = fold_right N.add 0%N m.
Proof. induction 1; cbn [fold_right]; lia. Qed.
Lemma tells_perm l m t u : Permutation l m -> tells l t -> tells m u -> Permutation t u.
Proof.
  intros P [D1 H1] [D2 H2]. assert (X : forall c, Permutation (of_label c l) (of_label c m)).
  { intro c. unfold of_label. apply Permutation_map, filter_perm, P. }
  apply NoDup_Permutation; [now apply NoDup_map_inv in D1|now apply NoDup_map_inv in D2|].
  intros [c [n x]]. rewrite H1, H2. unfold times, total. now rewrite (Permutation_length (X c)), (sum_perm _ _ (X c)).
Qed.

(** * The report *)

Section Report.
Variable avg : N -> nat -> N.
Notation key := (key avg).
Fixpoint insert e (l : list (str * (nat * N))) : list (str * (nat * N)) :=
  match l with [] => [e] | a :: l' => if (key e <=? key a)%N then e :: l else a :: insert e l' end.
Lemma insert_perm e l : Permutation (e :: l) (insert e l).
Proof.
  induction l as [|a l IH]; cbn [insert]; auto. destruct (_ <=? _)%N; auto.
  eapply perm_trans; [apply perm_swap|]. now constructor.
Qed.
Lemma insert_sorted e l : ascending avg l -> ascending avg (insert e l).
Proof.
  induction l as [|a l IH]; intro H; [exact I|]. cbn [insert]. destruct (N.leb_spec (key e) (key a)); [now split|].
  destruct l as [|b l]; [cbn; split; [lia|exact I]|]. destruct H as [H1 H2]. specialize (IH H2). cbn [insert] in *.
  destruct (key e <=? key b)%N; split; auto; lia.
Qed.
Lemma listed_exists t : exists l, listed avg t l.
Proof.
  assert (X : exists m, Permutation t m /\ ascending avg m).
  { induction t as [|e t (m & P & A)]; [exists []; split; [constructor|exact I]|]. exists (insert e m). split; [|now apply insert_sorted].
    eapply perm_trans; [apply perm_skip, P|apply insert_perm]. }
  destruct X as (m & P & A). exists (rev m), m. auto.
Qed.
Lemma ascending_head a l : ascending avg (a :: l) -> forall b, In b l -> (key a <= key b)%N.
Proof.
  revert a. induction l as [|c l IH]; intros a H b I; [destruct I|]. destruct H as [H1 H2]. destruct I as [->|I]; [exact H1|].
  specialize (IH c H2 b I). lia.
Qed.
Lemma ascending_parts l m : ascending avg (l ++ m) -> forall a b, In a l -> In b m -> (key a <= key b)%N.
Proof.
  induction l as [|c l IH]; intros H a b Ia Ib; [destruct Ia|]. destruct Ia as [->|Ia].
  - apply (ascending_head _ _ H). apply in_or_app. now right.
  - apply IH; auto. cbn [app] in H. destruct (l ++ m); [exact I|apply H].
Qed.
(** Nothing is listed before something with a larger average. *)
Lemma listed_falls t l x y : listed avg t l -> l = x ++ y -> forall a b, In a x -> In b y -> (key b <= key a)%N.
Proof.
  intros (m & P & A & ->) E a b Ia Ib. apply (f_equal (@rev _)) in E. rewrite rev_involutive, rev_app_distr in E. subst m.
  apply (ascending_parts _ _ A); now apply -> in_rev.
Qed.
Lemma listed_perm t l : listed avg t l -> Permutation t l.
Proof. intros (m & P & A & ->). eapply perm_trans; [exact P|apply Permutation_rev]. Qed.
End Report.
Lemma tells_same l t u : tells l t -> Permutation t u -> tells l u.
Proof.
  intros [D H] P. split; [eapply Permutation_NoDup; [apply Permutation_map, P|exact D]|]. intros c n x. rewrite <- H.
  split; apply Permutation_in; [now apply Permutation_sym|exact P].
Qed.
