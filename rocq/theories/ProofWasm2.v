(** Every date has a number; tables, comments and definitions made or read from
    JavaScript. *)
From Verif Require Import Base ModelSpan ModelComb ModelAst ModelTable ModelLink ModelElem ModelJson ModelWasm SpecWasm
  ProofBase ProofTable ProofTree ProofElem2 ProofWasm.
From Coq Require Import ZArith Lia.

(** * Every date has a number *)

Definition num (d : date) : Prop := exists n, day_number d n.
Lemma num_next a b : next_day a b -> num a <-> num b.
Proof. intro H. split; intros (n & D); eexists; [eapply dn_next|eapply dn_previous]; eauto. Qed.
Lemma num_day y m k d : month_length y m k -> 1 <= d <= k -> num (Date y m 1) <-> num (Date y m d).
Proof.
  intros M. induction d as [|d IH]; intro L; [lia|]. destruct d as [|d]; [reflexivity|].
  rewrite IH by lia. apply num_next. apply nd_day with (k := k); [exact M|lia].
Qed.
Lemma num_month y m : 1 <= m <= 12 -> num (Date y 1 1) <-> num (Date y m 1).
Proof.
  induction m as [|m IH]; intro L; [lia|]. destruct m as [|m]; [reflexivity|]. rewrite IH by lia.
  destruct (month_exists y (S m) ltac:(lia)) as (k & M & K). rewrite (num_day y (S m) k k M ltac:(lia)). apply num_next.
  apply nd_month; [exact M|lia].
Qed.
Lemma num_year y : num (Date y 1 1) <-> num (Date (y + 1) 1 1).
Proof.
  rewrite (num_month y 12) by lia. rewrite (num_day y 12 31 31 (ml_31 y 12 ltac:(cbn; tauto)) ltac:(lia)). apply num_next. constructor.
Qed.
Lemma num_all y : num (Date y 1 1).
Proof.
  assert (G : forall n, num (Date (1970 + Z.of_nat n) 1 1) /\ num (Date (1970 - Z.of_nat n) 1 1)).
  { induction n as [|n [A B]].
    - split; exists 0%Z; constructor.
    - split.
      + replace (1970 + Z.of_nat (S n))%Z with (1970 + Z.of_nat n + 1)%Z by lia. now apply (proj1 (num_year _)).
      + apply (proj2 (num_year _)). now replace (1970 - Z.of_nat (S n) + 1)%Z with (1970 - Z.of_nat n)%Z by lia. }
  destruct (Z.le_ge_cases 1970 y).
  - replace y with (1970 + Z.of_nat (Z.to_nat (y - 1970)))%Z by lia. apply G.
  - replace y with (1970 - Z.of_nat (Z.to_nat (1970 - y)))%Z by lia. apply G.
Qed.
Lemma real_number d : real_date d -> num d.
Proof.
  destruct d as [y m d]. intros (k & M & L). cbn [d_year d_month d_day] in *. apply (num_day y m k d M L).
  apply (num_month y m); [eapply month_cases; exact M|]. apply num_all.
Qed.

(** * Tables *)

Definition row_cells (row : list (option (located cell))) : list (located cell) :=
  flat_map (fun x => match x with Some c => [c] | None => [] end) row.
Lemma in_combine_seq {A} (l : list A) : forall a i y, In (i, y) (combine (seq a (length l)) l) <-> a <= i /\ nth_error l (i - a) = Some y.
Proof.
  induction l as [|x l IH]; intros a i y; cbn [length seq combine In].
  - split; [intros []|]. intros [_ E]. destruct (i - a); discriminate.
  - rewrite IH. split.
    + intros [E|[L E]]; [injection E as <- <-; rewrite Nat.sub_diag; auto|]. split; [lia|].
      replace (i - a) with (S (i - S a)) by lia. exact E.
    + intros [L E]. destruct (Nat.eq_dec i a) as [->|N]; [rewrite Nat.sub_diag in E; injection E as <-; now left|right].
      split; [lia|]. replace (i - a) with (S (i - S a)) in E by lia. exact E.
Qed.
Lemma in_js_row r row k x : In (k, x) (js_row r row) <-> cp_row k = r /\ nth_error (row_cells row) (cp_col k) = Some x.
Proof.
  unfold js_row. fold (row_cells row). cbv zeta. generalize (row_cells row) as l. intro l.
  assert (E : forall a, combine (map (CellPos r) a) l = map (fun p => (CellPos r (fst p), snd p)) (combine a l)).
  { induction l as [|y l IH]; intros [|i a]; cbn [map combine]; try reflexivity. now rewrite IH. }
  rewrite E, in_map_iff. split.
  - intros ([i y] & F & I). cbn [fst snd] in F. injection F as <- <-. apply in_combine_seq in I as [_ I]. rewrite Nat.sub_0_r in I. auto.
  - intros [<- I]. exists (cp_col k, x). split; [now destruct k|]. apply in_combine_seq. rewrite Nat.sub_0_r. split; [lia|exact I].
Qed.
Definition js_cells (a : nat) (rows : list (option (list (option (located cell))))) : list (cellpos * located cell) :=
  concat (map (fun x => match snd x with Some row => js_row (fst x) row | None => [] end) (combine (seq a (length rows)) rows)).
Lemma in_js_cells a rows k x : In (k, x) (js_cells a rows) <->
  a <= cp_row k /\ exists row, nth_error rows (cp_row k - a) = Some (Some row) /\ nth_error (row_cells row) (cp_col k) = Some x.
Proof.
  unfold js_cells. rewrite in_concat. split.
  - intros (l & I & J). apply in_map_iff in I as ([r o] & <- & I). cbn [fst snd] in J. destruct o as [row|]; [|destruct J].
    apply in_js_row in J as [<- J]. apply in_combine_seq in I as [L I]. eauto.
  - intros (L & row & I & J). exists (js_row (cp_row k) row). split; [|now apply in_js_row].
    apply in_map_iff. exists (cp_row k, Some row). split; [reflexivity|]. apply in_combine_seq. auto.
Qed.
Lemma js_cells_nodup rows : forall a, NoDup (map fst (js_cells a rows)).
Proof.
  induction rows as [|o rows IH]; intro a; [constructor|].
  change (js_cells a (o :: rows)) with ((match o with Some row => js_row a row | None => [] end) ++ js_cells (S a) rows).
  rewrite map_app. assert (N : NoDup (map fst (match o with Some row => js_row a row | None => [] end))).
  { destruct o as [row|]; [|constructor]. unfold js_row. fold (row_cells row). cbv zeta. generalize (row_cells row) as l. intro l.
    assert (E : forall (ks : list cellpos), length ks = length l -> map fst (combine ks l) = ks).
    { clear. induction l as [|y l IH]; intros [|k ks] L; try discriminate; [reflexivity|]. cbn [combine map fst]. rewrite IH; auto. }
    rewrite E by (now rewrite map_length, seq_length). assert (J : forall l, NoDup l -> NoDup (map (CellPos a) l)).
    { clear. induction 1 as [|x l NI _ IH2]; [constructor|]. cbn [map]. constructor; [|exact IH2].
      intro I. apply in_map_iff in I as (y & E & I). injection E as ->. auto. }
    apply J, seq_NoDup. }
  assert (D : forall k, In k (map fst (match o with Some row => js_row a row | None => [] end)) -> In k (map fst (js_cells (S a) rows)) -> False).
  { intros k I J. apply in_map_iff in I as ([k1 x1] & <- & I). apply in_map_iff in J as ([k2 x2] & E & J). cbn [fst] in E. subst k2.
    destruct o as [row|]; [|destruct I]. apply in_js_row in I as [E _]. apply in_js_cells in J as [L _]. cbn [fst] in *. lia. }
  revert N D. generalize (map fst (match o with Some row => js_row a row | None => [] end)) as l. induction l as [|k l IHl]; intros N D; cbn [app]; [apply IH|].
  inversion N; subst. constructor.
  - intro I. apply in_app_or in I as [I|I]; [auto|]. apply (D k); [now left|exact I].
  - apply IHl; auto. intros q I. apply D. now right.
Qed.
Lemma js_table_cell rows ce r c : get_cell (js_table rows ce) r c =
  match nth_error rows r with Some (Some row) => nth_error (row_cells row) c | _ => None end.
Proof.
  unfold get_cell, js_table, table_new. cbn [t_cells]. fold (js_cells 0 rows). rewrite cells_collect_id by apply js_cells_nodup.
  destruct (cells_get (CellPos r c) (js_cells 0 rows)) as [x|] eqn:E.
  - apply cells_get_in in E; [|apply js_cells_nodup]. apply in_js_cells in E as (_ & row & A & B). cbn [cp_row cp_col] in *. rewrite Nat.sub_0_r in A.
    now rewrite A.
  - destruct (nth_error rows r) as [[row|]|] eqn:A; auto. destruct (nth_error (row_cells row) c) as [x|] eqn:B; auto.
    assert (I : In (CellPos r c, x) (js_cells 0 rows)) by (apply in_js_cells; cbn [cp_row cp_col]; rewrite Nat.sub_0_r; split; [lia|eauto]).
    apply (cells_get_in _ (CellPos r c) x (js_cells_nodup rows 0)) in I. congruence.
Qed.
