(** Tables made by [Table::new] are counted; an equality of URIs that ignores
    the case of percent-encodings. *)
From Verif Require Import Base ModelSpan ModelAst ModelLink ModelTable ModelElem ModelOracle ModelEq SpecEq ProofElem2 ProofEq.

Lemma fold_max_iff {A} (f : A -> nat) l : forall a n,
  fold_left (fun a x => Nat.max a (f x + 1)) l a <= n <-> a <= n /\ forall x, In x l -> f x < n.
Proof.
  induction l as [|x l IH]; intros a n; cbn [fold_left].
  - split; [intro H; split; auto; intros x []|tauto].
  - rewrite IH. split.
    + intros [H1 H2]. split; [lia|]. intros y [<-|I]; [lia|auto].
    + intros [H1 H2]. split; [specialize (H2 x (or_introl eq_refl)); lia|]. intros y I. apply H2. now right.
Qed.
Lemma table_new_ok l c : keyed (t_cells (table_new l c)) /\ counted (table_new l c).
Proof.
  split; [apply cells_collect_nodup|]. unfold table_new. split; intro n; cbn [t_row_cnt t_col_cnt t_cells].
  - rewrite (fold_max_iff (fun kv : cellpos * located cell => cp_row (fst kv))). split.
    + intros [_ H] k x I. exact (H (k, x) I).
    + intro H. split; [lia|]. intros [k x] I. exact (H k x I).
  - rewrite (fold_max_iff (fun kv : cellpos * located cell => cp_col (fst kv))). split.
    + intros [_ H] k x I. exact (H (k, x) I).
    + intro H. split; [lia|]. intros [k x] I. exact (H k x I).
Qed.

Fixpoint lower_codes (s : str) : str :=
  match s with
  | x25 :: a :: b :: s' => x25 :: to_lower a :: to_lower b :: lower_codes s'
  | c :: s' => c :: lower_codes s'
  | [] => []
  end.
Definition loose (u : uri) : uri :=
  Uri (u_scheme u) (u_authority u) (u_abs u) (map lower_codes (u_segs u)) (option_map lower_codes (u_query u))
    (option_map lower_codes (u_fragment u)).
Definition uri_same (u v : uri) : bool :=
  opt_eqb str_eqb (u_scheme u) (u_scheme v) && opt_eqb str_eqb (u_authority u) (u_authority v) &&
  Bool.eqb (u_abs u) (u_abs v) && list_eqb str_eqb (u_segs u) (u_segs v) &&
  opt_eqb str_eqb (u_query u) (u_query v) && opt_eqb str_eqb (u_fragment u) (u_fragment v).
Lemma uri_same_eq u v : uri_same u v = true <-> u = v.
Proof.
  destruct u, v. unfold uri_same. cbn.
  rewrite !andb_true_iff, strs_eqb_eq, Bool.eqb_true_iff, !(opt_eqb_eq str_eqb) by (intros; apply str_eqb_eq). inj.
Qed.
Definition loose_eqb (u v : uri) : bool := uri_same (loose u) (loose v).
Lemma loose_describes : describes loose_eqb loose.
Proof. intros u v. apply uri_same_eq. Qed.
Lemma recount t : table_new (t_cells t) (t_centered t) = t -> keyed (t_cells t) /\ counted t.
Proof. intro E. rewrite <- E at 1 2. apply table_new_ok. Qed.
