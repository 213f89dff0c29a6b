(** Proofs about the query methods of elements. *)
From Coq Require Import QArith Permutation FinFun Sorted.
From Verif Require Import Base ModelSpan ModelAst ModelLink ModelTable ModelElem
  SpecElem ProofBase ProofTable.
Local Open Scope nat_scope.

(** * Tables *)

Lemma get_cell_at t r c x : is_map t -> (get_cell t r c = Some x <-> at_ t r c x).
Proof. intro H. unfold get_cell, at_. now apply cells_get_in. Qed.

Lemma cells_get_key k v m : cells_get k m = Some v -> In k (map fst m).
Proof.
  induction m as [|[k' v'] m IH]; cbn; [discriminate|].
  destruct (cellpos_eqb k k') eqn:E; [apply cellpos_eqb_eq in E; auto | auto].
Qed.

(** A walk is the run of present cells from its start. *)
Lemma walk_nth get fuel i : forall j x,
  nth_error (walk fuel get i) j = Some x ->
  get (i + j) = Some x /\ forall k, k < j -> exists y, get (i + k) = Some y.
Proof.
  revert i. induction fuel as [|f IH]; intros i j x H; cbn in H; [destruct j; discriminate|].
  destruct (get i) as [c|] eqn:E; [|destruct j; discriminate].
  destruct j as [|j]; cbn in H.
  - injection H as <-. rewrite Nat.add_0_r. split; auto. lia.
  - apply IH in H as [H1 H2]. rewrite <- Nat.add_succ_comm. split; auto.
    intros [|k] Hk; [rewrite Nat.add_0_r; eauto|].
    rewrite <- Nat.add_succ_comm. apply H2. lia.
Qed.

Lemma walk_nth_rev get fuel i : forall j x,
  get (i + j) = Some x -> (forall k, k < j -> exists y, get (i + k) = Some y) -> j < fuel ->
  nth_error (walk fuel get i) j = Some x.
Proof.
  revert i. induction fuel as [|f IH]; intros i j x H1 H2 Hf; [lia|]. cbn.
  destruct j as [|j].
  - rewrite Nat.add_0_r in H1. rewrite H1. reflexivity.
  - destruct (H2 0 ltac:(lia)) as [y Hy]. rewrite Nat.add_0_r in Hy. rewrite Hy. cbn.
    apply IH; [now rewrite Nat.add_succ_comm | | lia].
    intros k Hk. rewrite Nat.add_succ_comm. apply H2. lia.
Qed.

(** Consecutive present keys are bounded by the number of stored cells. *)
Lemma keys_bound (m : list (cellpos * located cell)) (f : nat -> cellpos) n :
  (forall a b, f a = f b -> a = b) -> (forall k, k < n -> exists y, cells_get (f k) m = Some y) ->
  n <= length m.
Proof.
  intros Hf H.
  assert (Hn : NoDup (map f (seq 0 n))) by (apply Injective_map_NoDup; [exact Hf | apply seq_NoDup]).
  assert (Hi : incl (map f (seq 0 n)) (map fst m)).
  { intros k Hk. apply in_map_iff in Hk as (j & <- & Hj). apply in_seq in Hj.
    destruct (H j ltac:(lia)) as [y Hy]. eapply cells_get_key; eauto. }
  pose proof (NoDup_incl_length Hn Hi) as L. now rewrite !map_length, seq_length in L.
Qed.

Lemma row_nth t r c x :
  nth_error (row t r) c = Some x <->
  get_cell t r c = Some x /\ forall k, k < c -> exists y, get_cell t r k = Some y.
Proof.
  unfold row. split.
  - intro H. apply walk_nth in H. exact H.
  - intros [H1 H2]. apply walk_nth_rev; auto.
    apply Nat.lt_succ_r, (keys_bound (t_cells t) (fun k => CellPos r k)); [congruence | exact H2].
Qed.

Lemma column_nth t r c x :
  nth_error (column t c) r = Some x <->
  get_cell t r c = Some x /\ forall k, k < r -> exists y, get_cell t k c = Some y.
Proof.
  change (ModelTable.column t c) with (walk (S (length (t_cells t))) (fun r => get_cell t r c) 0). split.
  - intro H. apply (walk_nth (fun r => get_cell t r c)) in H. exact H.
  - intros [H1 H2]. apply walk_nth_rev; auto.
    apply Nat.lt_succ_r, (keys_bound (t_cells t) (fun k => CellPos k c)); [congruence | exact H2].
Qed.

Lemma is_divider_row_spec t r : is_map t -> (is_divider_row t r = true <-> divider_row t r).
Proof.
  intro M. unfold is_divider_row, divider_row. split.
  - destruct (get_cell t r 0) as [x|] eqn:E; [|discriminate].
    apply get_cell_at in E; auto. destruct (l_val x) eqn:E'; cbn; try discriminate. eauto.
  - intros (x & a & H & E). apply get_cell_at in H; auto. now rewrite H, E.
Qed.

Lemma divider_index_spec t : is_map t ->
  match get_divider_row_index t with
  | Some d => first_divider t d
  | None => forall r, r < t_row_cnt t -> ~ divider_row t r
  end.
Proof.
  intro M. unfold get_divider_row_index, rows, first_divider.
  assert (H : forall n k, (forall r, r < k -> ~ divider_row t r) ->
    match find (is_divider_row t) (seq k n) with
    | Some d => d < k + n /\ divider_row t d /\ forall r, r < d -> ~ divider_row t r
    | None => forall r, r < k + n -> ~ divider_row t r
    end).
  { induction n as [|n IH]; intros k Hk; cbn; [intros; apply Hk; lia|].
    destruct (is_divider_row t k) eqn:E.
    - apply is_divider_row_spec in E; auto. split; [lia|]. auto.
    - assert (Hk' : forall r, r < S k -> ~ divider_row t r).
      { intros r Hr. destruct (Nat.eq_dec r k) as [->|]; [|apply Hk; lia].
        intro K. apply is_divider_row_spec in K; auto. congruence. }
      specialize (IH (S k) Hk'). replace (k + S n) with (S k + n) by lia. exact IH. }
  apply (H (t_row_cnt t) 0). lia.
Qed.

Lemma first_divider_unique t d d' : first_divider t d -> first_divider t d' -> d = d'.
Proof.
  intros (_ & H1 & H2) (_ & K1 & K2).
  destruct (Nat.lt_trichotomy d d') as [L|[L|L]]; auto; exfalso; [eapply K2 | eapply H2]; eauto.
Qed.

Lemma header_rows_spec t : is_map t ->
  StronglySorted lt (header_rows t) /\
  forall r, In r (header_rows t) <-> exists d, first_divider t d /\ r < d.
Proof.
  intro M. pose proof (divider_index_spec t M) as H. unfold header_rows.
  assert (Hs : forall k n, StronglySorted lt (filter (fun r => negb (is_divider_row t r)) (seq k n))).
  { intros k n. revert k. induction n as [|n IH]; intro k; cbn; [constructor|].
    destruct (is_divider_row t k); cbn; auto. constructor; auto.
    apply Forall_forall. intros x Hx. apply filter_In in Hx as [Hx _]. apply in_seq in Hx. lia. }
  split; [apply Hs|]. intro r. rewrite filter_In, in_seq, negb_true_iff.
  destruct (get_divider_row_index t) as [d|].
  - split.
    + intros [Hr _]. exists d. split; auto. lia.
    + intros (d' & Hd & Hr). rewrite (first_divider_unique _ _ _ Hd H) in Hr. split; [lia|].
      destruct (is_divider_row t r) eqn:E; auto. exfalso.
      apply is_divider_row_spec in E; auto. destruct H as (_ & _ & H). exact (H r Hr E).
  - split; [lia|]. intros (d & (Hd & Hd' & _) & _). exfalso. exact (H d Hd Hd').
Qed.

Lemma body_rows_spec t : is_map t ->
  StronglySorted lt (body_rows t) /\
  forall r, In r (body_rows t) <->
    r < t_row_cnt t /\ ~ divider_row t r /\ forall d, first_divider t d -> d < r.
Proof.
  intro M. pose proof (divider_index_spec t M) as H. unfold body_rows.
  assert (Hs : forall k n, StronglySorted lt (filter (fun r => negb (is_divider_row t r)) (seq k n))).
  { intros k n. revert k. induction n as [|n IH]; intro k; cbn; [constructor|].
    destruct (is_divider_row t k); cbn; auto. constructor; auto.
    apply Forall_forall. intros x Hx. apply filter_In in Hx as [Hx _]. apply in_seq in Hx. lia. }
  split; [apply Hs|]. intro r. rewrite filter_In, in_seq, negb_true_iff.
  assert (Hd : is_divider_row t r = false <-> ~ divider_row t r).
  { rewrite <- (is_divider_row_spec t r M). destruct (is_divider_row t r); split; congruence. }
  rewrite Hd. destruct (get_divider_row_index t) as [d|].
  - split.
    + intros [Hr Hn]. destruct H as (H0 & H1 & H2). split; [lia|]. split; auto.
      intros d' Hd'. rewrite (first_divider_unique t d' d); [lia | auto | repeat split; auto].
    + intros (H1 & H2 & H3). specialize (H3 d H). split; auto. lia.
  - split.
    + intros [Hr Hn]. split; [lia|]. split; auto. intros d (K1 & K2 & _). exfalso. exact (H d K1 K2).
    + intros (H1 & H2 & H3). split; auto. lia.
Qed.

Lemma sorted_nodup l : StronglySorted lt l -> NoDup l.
Proof.
  induction 1 as [|a l H IH Hf]; constructor; auto.
  intro K. rewrite Forall_forall in Hf. apply Hf in K. lia.
Qed.

Lemma divider_dec t r : is_map t -> divider_row t r \/ ~ divider_row t r.
Proof.
  intro M. rewrite <- is_divider_row_spec by auto. destruct (is_divider_row t r); auto.
Qed.

Lemma rows_partition t : is_map t ->
  exists ds, (forall r, In r ds <-> r < t_row_cnt t /\ divider_row t r) /\
             Permutation (seq 0 (t_row_cnt t)) (header_rows t ++ ds ++ body_rows t).
Proof.
  intro M. exists (filter (is_divider_row t) (seq 0 (t_row_cnt t))). split.
  - intro r. rewrite filter_In, in_seq, is_divider_row_spec by auto. intuition lia.
  - destruct (header_rows_spec t M) as [S1 H1]. destruct (body_rows_spec t M) as [S2 H2].
    apply NoDup_Permutation; [apply seq_NoDup | |].
    + apply NoDup_app_intro; [now apply sorted_nodup | apply NoDup_app_intro |].
      * apply NoDup_filter, seq_NoDup.
      * now apply sorted_nodup.
      * intros r K1 K2. apply filter_In in K1 as [_ K1]. apply is_divider_row_spec in K1; auto.
        apply H2 in K2. tauto.
      * intros r K1 K2. apply H1 in K1 as (d & Hd & Hr). apply in_app_iff in K2 as [K2|K2].
        -- apply filter_In in K2 as [_ K2]. apply is_divider_row_spec in K2; auto.
           destruct Hd as (_ & _ & Hd). exact (Hd r Hr K2).
        -- apply H2 in K2 as (_ & _ & K2). specialize (K2 d Hd). lia.
    + intro r. rewrite !in_app_iff, filter_In, in_seq, is_divider_row_spec, H1, H2 by auto. split.
      * intros [_ Hr]. cbn in Hr. destruct (divider_dec t r M) as [D|D]; [right; left; split; auto; lia|].
        pose proof (divider_index_spec t M) as HD.
        destruct (get_divider_row_index t) as [d|].
        -- destruct (Nat.lt_ge_cases r d) as [L|L]; [left; eauto|]. right. right.
           split; auto. split; auto. intros d' Hd'.
           rewrite (first_divider_unique t d' d Hd' HD). destruct (Nat.eq_dec r d) as [->|]; [|lia].
           destruct HD as (_ & HD & _). contradiction.
        -- right. right. split; auto. split; auto. intros d (K1 & K2 & _). exfalso. exact (HD d K1 K2).
      * intros [(d & (K1 & _) & K2)|[[[_ K] _]|[K _]]]; lia.
Qed.

(** * Iteration over cells *)

Lemma walk_app get : forall n fuel i,
  (forall k, k < n -> exists x, get (i + k) = Some x) -> get (i + n) = None -> n < fuel ->
  map Some (walk fuel get i) = map get (seq i n).
Proof.
  induction n as [|n IH]; intros fuel i H N Hf; (destruct fuel as [|f]; [lia|]); cbn.
  - rewrite Nat.add_0_r in N. now rewrite N.
  - destruct (H 0 ltac:(lia)) as [x Hx]. rewrite Nat.add_0_r in Hx. rewrite Hx. cbn. f_equal.
    apply IH; [|now rewrite Nat.add_succ_comm | lia].
    intros k Hk. rewrite Nat.add_succ_comm. apply H. lia.
Qed.

(** The stored cells in row-major order. *)
Definition grid (t : table) : list (nat * nat) :=
  flat_map (fun r => map (fun c => (r, c)) (seq 0 (t_col_cnt t))) (seq 0 (t_row_cnt t)).

Lemma flat_map_map {A B C} (f : A -> B) (g : B -> list C) l :
  flat_map g (map f l) = flat_map (fun x => g (f x)) l.
Proof. induction l; cbn; congruence. Qed.

Lemma map_flat_map {A B C} (f : B -> C) (g : A -> list B) l :
  map f (flat_map g l) = flat_map (fun x => map f (g x)) l.
Proof. induction l; cbn; auto. now rewrite map_app, IHl. Qed.

Lemma in_grid t r c : In (r, c) (grid t) <-> r < t_row_cnt t /\ c < t_col_cnt t.
Proof.
  unfold grid. rewrite in_flat_map. split.
  - intros (r' & H1 & H2). apply in_map_iff in H2 as (c' & E & H2). injection E as <- <-.
    apply in_seq in H1. apply in_seq in H2. lia.
  - intros [H1 H2]. exists r. split; [apply in_seq; lia|]. apply in_map_iff. exists c.
    split; auto. apply in_seq; lia.
Qed.

Lemma nodup_flat {A B} (f : A -> list B) l :
  NoDup l -> (forall a, In a l -> NoDup (f a)) ->
  (forall a b x, In a l -> In b l -> In x (f a) -> In x (f b) -> a = b) ->
  NoDup (flat_map f l).
Proof.
  induction 1 as [|a l Ha Hl IH]; intros H1 H2; cbn; [constructor|].
  apply NoDup_app_intro; [apply H1; now left | apply IH |].
  - intros b Hb. apply H1. now right.
  - intros b c x Hb Hc. apply H2; now right.
  - intros x Hx K. apply in_flat_map in K as (b & Hb & K).
    assert (a = b) by (apply (H2 a b x); cbn; auto). congruence.
Qed.

Lemma nodup_grid t : NoDup (grid t).
Proof.
  unfold grid. apply nodup_flat; [apply seq_NoDup | |].
  - intros a _. apply Injective_map_NoDup; [intros x y E; now injection E | apply seq_NoDup].
  - intros a b [x y] _ _ H K. apply in_map_iff in H as (? & E & _).
    apply in_map_iff in K as (? & E' & _). congruence.
Qed.

(** Any duplicate-free list of positions that are all stored, and that
    contains all stored positions, lists the stored cells. *)
Lemma positions_perm t ps xs :
  is_map t -> NoDup ps -> map (fun p => get_cell t (fst p) (snd p)) ps = map Some xs ->
  (forall r c, present t r c -> In (r, c) ps) ->
  Permutation xs (map snd (t_cells t)).
Proof.
  intros M Hn Hm Hall.
  assert (E : Permutation (combine (map (fun p => CellPos (fst p) (snd p)) ps) xs) (t_cells t)).
  { apply NoDup_Permutation.
    - assert (HL : length ps = length xs) by (apply (f_equal (@length _)) in Hm; now rewrite !map_length in Hm).
      apply (NoDup_map_inv fst).
      assert (Ef : map fst (combine (map (fun p => CellPos (fst p) (snd p)) ps) xs)
                   = map (fun p => CellPos (fst p) (snd p)) ps).
      { clear - HL. revert xs HL. induction ps as [|p ps IH]; intros [|x xs] H; cbn in *; try discriminate; auto.
        f_equal. apply IH. lia. }
      rewrite Ef. apply Injective_map_NoDup; auto. intros [a b] [c d] H. cbn in H. congruence.
    - apply (NoDup_map_inv fst). exact M.
    - intros [[r c] x]. fold (at_ t r c x). rewrite <- (get_cell_at t r c x M). split.
      + intro H. clear - H Hm. revert xs Hm H.
        induction ps as [|p ps IH]; intros [|y xs] Hm H; cbn in *; try tauto; try discriminate.
        injection Hm as H1 H2. destruct H as [H|H]; [|eauto].
        injection H as E1 E2 E3. subst. exact H1.
      + intro H. assert (Hp : In (r, c) ps) by (apply Hall; exists x; now apply get_cell_at).
        clear - Hm H Hp. revert xs Hm.
        induction ps as [|p ps IH]; intros [|y xs] Hm; cbn in *; try tauto; try discriminate.
        injection Hm as H1 H2. destruct Hp as [->|Hp]; [|right; auto].
        left. cbn in *. congruence. }
  apply (Permutation_map snd) in E.
  assert (Es : map snd (combine (map (fun p => CellPos (fst p) (snd p)) ps) xs) = xs).
  { assert (HL : length ps = length xs) by (apply (f_equal (@length _)) in Hm; now rewrite !map_length in Hm).
    clear - HL. revert xs HL. induction ps as [|p ps IH]; intros [|x xs] H; cbn in *; try discriminate; auto.
    f_equal. apply IH. lia. }
  now rewrite Es in E.
Qed.

(** The step of [cells] enumerates the grid. *)
Lemma seq_split a n m : seq a (n + m) = seq a n ++ seq (a + n) m.
Proof. apply seq_app. Qed.

Lemma cells_run_grid t : rectangular t -> is_map t ->
  forall fuel r c,
  r < t_row_cnt t -> c < t_col_cnt t ->
  (t_row_cnt t - S r) * t_col_cnt t + (t_col_cnt t - c) < fuel ->
  get_cell t (t_row_cnt t) (t_col_cnt t) = None ->
  map Some (cells_run fuel t (r, c)) =
  map (fun p => get_cell t (fst p) (snd p))
    (map (fun c => (r, c)) (seq c (t_col_cnt t - c)) ++
     flat_map (fun r => map (fun c => (r, c)) (seq 0 (t_col_cnt t))) (seq (S r) (t_row_cnt t - S r))).
Proof.
  intros Hrect M. set (C := t_col_cnt t). set (R := t_row_cnt t).
  induction fuel as [|f IH]; intros r c Hr Hc Hf Hend; [lia|].
  cbn [cells_run cells_step]. fold C R.
  destruct (Hrect r c Hr Hc) as [x Hx]. apply get_cell_at in Hx; auto. rewrite Hx.
  replace (C - c) with (S (C - S c)) by lia. cbn [seq map app fst snd]. rewrite Hx. f_equal.
  destruct (c + 1 <? C) eqn:E1.
  - apply Nat.ltb_lt in E1. replace (c + 1) with (S c) by lia.
    apply IH; auto; try lia.
  - apply Nat.ltb_ge in E1. replace (C - S c) with 0 by lia. cbn [seq map app].
    destruct (r + 1 <? R) eqn:E2.
    + apply Nat.ltb_lt in E2. replace (r + 1) with (S r) by lia.
      replace (R - S r) with (S (R - S (S r))) by lia. cbn [seq flat_map].
      rewrite (IH (S r) 0); auto; try lia.
      * rewrite Nat.sub_0_r. reflexivity.
      * replace (R - S r) with (S (R - S (S r))) in Hf by lia. cbn in Hf. lia.
    + apply Nat.ltb_ge in E2. replace (R - S r) with 0 by lia. cbn.
      destruct f as [|f]; cbn; [reflexivity|]. now rewrite Hend.
Qed.

Lemma outside_none t r c : is_map t -> counts_ok t -> t_row_cnt t <= r -> get_cell t r c = None.
Proof.
  intros M W H. destruct (get_cell t r c) as [x|] eqn:E; auto. exfalso.
  apply get_cell_at in E; auto. destruct (W r c); [now exists x | lia].
Qed.

Lemma cells_grid t : is_map t -> counts_ok t -> rectangular t ->
  map Some (cells t) = map (fun p => get_cell t (fst p) (snd p)) (grid t).
Proof.
  intros M W H. unfold cells, grid.
  pose proof (outside_none t (t_row_cnt t) (t_col_cnt t) M W (le_n _)) as Hend.
  destruct (t_row_cnt t) as [|R] eqn:ER.
  - cbn [seq flat_map map]. cbn [cells_run cells_step].
    rewrite (outside_none t 0 0 M W) by lia. reflexivity.
  - destruct (t_col_cnt t) as [|C] eqn:EC.
    + assert (E : get_cell t 0 0 = None).
      { destruct (get_cell t 0 0) as [x|] eqn:E; auto. apply get_cell_at in E; auto.
        destruct (W 0 0); [now exists x | lia]. }
      cbn [cells_run cells_step]. rewrite Nat.mul_0_r. cbn [cells_run cells_step]. rewrite E. cbn [map].
      assert (En : forall n k, flat_map (fun r : nat => map (fun c : nat => (r, c)) (seq 0 0)) (seq k n) = [])
        by (induction n; intro k; cbn; auto).
      rewrite En. reflexivity.
    + rewrite cells_run_grid; auto; rewrite ?ER, ?EC; try lia; auto.
      cbn [Nat.sub]. rewrite Nat.sub_0_r. reflexivity.
Qed.

Lemma cells_all t : is_map t -> counts_ok t -> rectangular t ->
  Permutation (cells t) (map snd (t_cells t)).
Proof.
  intros M W H. apply (positions_perm t (grid t)); auto using nodup_grid.
  - symmetry. now apply cells_grid.
  - intros r c K. apply in_grid. now apply W.
Qed.

(** Row by row. *)
Fixpoint run_len (f : nat -> bool) (fuel i : nat) : nat :=
  match fuel with 0 => 0 | S k => if f i then S (run_len f k (S i)) else 0 end.

Lemma row_map t r : map Some (row t r) = map (fun c => get_cell t r c) (seq 0 (length (row t r))).
Proof.
  apply (nth_ext _ _ None None); [now rewrite !map_length, seq_length|].
  intros n Hn. rewrite map_length in Hn.
  destruct (nth_error (row t r) n) as [x|] eqn:E; [|apply nth_error_None in E; lia].
  rewrite (nth_indep _ None (Some x)) by now rewrite map_length.
  rewrite map_nth. rewrite (nth_error_nth _ _ x E).
  apply row_nth in E as [E _]. rewrite <- E.
  rewrite (nth_indep _ _ (get_cell t r 0)) by now rewrite map_length, seq_length.
  rewrite (map_nth (fun c => get_cell t r c)), seq_nth by auto. reflexivity.
Qed.

Lemma map_concat_some {A} (ls : list (list A)) : map Some (concat ls) = concat (map (map Some) ls).
Proof. induction ls; cbn; auto. now rewrite map_app, IHls. Qed.

Lemma rows_all t : is_map t -> counts_ok t -> rows_filled t ->
  Permutation (flat_map (row t) (rows t)) (map snd (t_cells t)).
Proof.
  intros M W H.
  apply (positions_perm t (flat_map (fun r => map (fun c => (r, c)) (seq 0 (length (row t r)))) (rows t))); auto.
  - apply nodup_flat; [apply seq_NoDup | |].
    + intros a _. apply Injective_map_NoDup; [intros x y E; now injection E | apply seq_NoDup].
    + intros a b [x y] _ _ K L. apply in_map_iff in K as (? & E & _).
      apply in_map_iff in L as (? & E' & _). congruence.
  - rewrite !map_flat_map. rewrite !flat_map_concat_map. f_equal. apply map_ext. intro r.
    rewrite map_map. cbn. symmetry. apply row_map.
  - intros r c [x Hx]. apply in_flat_map. exists r. split.
    + apply in_seq. destruct (W r c); [now exists x | lia].
    + apply in_map_iff. exists c. split; auto. apply in_seq. split; [lia|]. rewrite Nat.add_0_l.
      apply nth_error_Some. intro E.
      assert (K : nth_error (row t r) c = Some x).
      { apply row_nth. split; [now apply get_cell_at|]. intros k Hk.
        destruct (H r c k) as [y Hy]; [now exists x | auto|]. exists y. now apply get_cell_at. }
      congruence.
Qed.

(** * Spans *)

Lemma count_while_run {A} (p : A -> bool) l :
  (forall i, i < count_while p l -> exists x, nth_error l i = Some x /\ p x = true) /\
  ~ (exists x, nth_error l (count_while p l) = Some x /\ p x = true).
Proof.
  induction l as [|a l [I1 I2]]; cbn.
  - split; [lia|]. intros (x & H & _). discriminate.
  - destruct (p a) eqn:E.
    + split; auto. intros [|i] Hi; cbn; [eauto|]. apply I1. lia.
    + split; [lia|]. intros (x & H & H'). cbn in H. congruence.
Qed.

Lemma span_is_spec k x : span_is k x = true <-> l_val x = CSpan k.
Proof.
  unfold span_is, get_span. destruct x as [v r]. cbn.
  destruct k, v as [c|[|]|a]; split; intro H; congruence || discriminate || reflexivity.
Qed.

Lemma nth_error_skipn' {A} (l : list A) n i : nth_error (skipn n l) i = nth_error l (n + i).
Proof.
  revert l. induction n as [|n IH]; intros [|a l]; cbn; auto. destruct i; auto.
Qed.

Lemma span_of_iter_spec k l x :
  nth_error l 0 = Some x -> is_content (l_val x) = true ->
  exists n, span_of_iter k l = n + 1 /\
    span_run (fun i y => nth_error l i = Some y) k n.
Proof.
  destruct l as [|a l]; cbn; [discriminate|]. intros H Hc. injection H as ->. rewrite Hc.
  exists (count_while (span_is k) l). split; auto.
  destruct (count_while_run (span_is k) l) as [I1 I2]. split.
  - intros [|i] Hi; [lia|]. destruct (I1 i) as (y & H & K); [lia|]. exists y. split; auto.
    now apply span_is_spec.
  - intros (y & H & K). apply I2. exists y. rewrite Nat.add_1_r in H. cbn in H.
    split; auto. now apply span_is_spec.
Qed.

Lemma colspan_spec t r c x cs :
  is_map t -> at_ t r c x -> l_val x = CContent cs ->
  (forall c', c' < c -> present t r c') ->
  exists n, get_cell_colspan t r c = n + 1 /\
            span_run (fun i => at_ t r (c + i)) FromLeft n.
Proof.
  intros M Hx Hc Hl.
  assert (E0 : nth_error (row t r) c = Some x).
  { apply row_nth. split; [now apply get_cell_at|]. intros k Hk. destruct (Hl k Hk) as [y Hy].
    exists y. now apply get_cell_at. }
  destruct (span_of_iter_spec FromLeft (skipn c (row t r)) x) as (n & E & I1 & I2).
  - now rewrite nth_error_skipn', Nat.add_0_r.
  - now rewrite Hc.
  - exists n. split; [exact E|]. split.
    + intros i Hi. destruct (I1 i Hi) as (y & H & K). exists y. split; auto.
      rewrite nth_error_skipn' in H. apply row_nth in H as [H _]. now apply get_cell_at.
    + intros (y & H & K). apply I2. exists y. split; auto. rewrite nth_error_skipn'.
      apply row_nth. split; [now apply get_cell_at|]. intros k Hk.
      destruct (Nat.lt_ge_cases k c) as [L|L]; [destruct (Hl k L) as [z Hz]; exists z; now apply get_cell_at|].
      destruct (Nat.eq_dec k c) as [->|]; [exists x; now apply get_cell_at|].
      destruct (I1 (k - c) ltac:(lia)) as (z & Hz & _). rewrite nth_error_skipn' in Hz.
      replace (c + (k - c)) with k in Hz by lia. apply row_nth in Hz as [Hz _]. eauto.
Qed.

Lemma rowspan_spec t r c x cs :
  is_map t -> at_ t r c x -> l_val x = CContent cs ->
  (forall r', r' < r -> present t r' c) ->
  exists n, get_cell_rowspan t r c = n + 1 /\
            span_run (fun i => at_ t (r + i) c) FromAbove n.
Proof.
  intros M Hx Hc Hl.
  assert (E0 : nth_error (column t c) r = Some x).
  { apply column_nth. split; [now apply get_cell_at|]. intros k Hk. destruct (Hl k Hk) as [y Hy].
    exists y. now apply get_cell_at. }
  destruct (span_of_iter_spec FromAbove (skipn r (column t c)) x) as (n & E & I1 & I2).
  - now rewrite nth_error_skipn', Nat.add_0_r.
  - now rewrite Hc.
  - exists n. split; [exact E|]. split.
    + intros i Hi. destruct (I1 i Hi) as (y & H & K). exists y. split; auto.
      rewrite nth_error_skipn' in H. apply column_nth in H as [H _]. now apply get_cell_at.
    + intros (y & H & K). apply I2. exists y. split; auto. rewrite nth_error_skipn'.
      apply column_nth. split; [now apply get_cell_at|]. intros k Hk.
      destruct (Nat.lt_ge_cases k r) as [L|L]; [destruct (Hl k L) as [z Hz]; exists z; now apply get_cell_at|].
      destruct (Nat.eq_dec k r) as [->|]; [exists x; now apply get_cell_at|].
      destruct (I1 (k - r) ltac:(lia)) as (z & Hz & _). rewrite nth_error_skipn' in Hz.
      replace (r + (k - r)) with k in Hz by lia. apply column_nth in Hz as [Hz _]. eauto.
Qed.

Lemma span_of_iter_other k t r c :
  is_map t -> (forall x, at_ t r c x -> is_content (l_val x) = false) ->
  match k with FromAbove => get_cell_rowspan t r c | FromLeft => get_cell_colspan t r c end = 0.
Proof.
  intros M H. unfold get_cell_rowspan, get_cell_colspan.
  destruct k.
  - destruct (skipn c (row t r)) as [|x l] eqn:E; auto. cbn.
    assert (K : nth_error (row t r) c = Some x).
    { rewrite <- (Nat.add_0_r c) at 1. rewrite <- nth_error_skipn', E. reflexivity. }
    apply row_nth in K as [K _]. apply get_cell_at in K; auto. now rewrite (H x K).
  - destruct (skipn r (column t c)) as [|x l] eqn:E; auto. cbn.
    assert (K : nth_error (column t c) r = Some x).
    { rewrite <- (Nat.add_0_r r) at 1. rewrite <- nth_error_skipn', E. reflexivity. }
    apply column_nth in K as [K _]. apply get_cell_at in K; auto. now rewrite (H x K).
Qed.
