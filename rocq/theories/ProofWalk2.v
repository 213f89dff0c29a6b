(** The order of a walk, positions, and regions made from ranges. *)
From Verif Require Import Base ModelSpan ModelComb ModelAst ModelTable SpecDoc SpecBlock SpecTree SpecEq ModelTree SpecWalk
  ProofBase ProofTree ProofJson3 ProofMacro2 ProofWalk.
Local Open Scope nat_scope.

(** * Order *)

Fixpoint relabel (t : rtree) : rtree := match t with RNode r n kids => RNode r (as_inline n) (map relabel kids) end.
Lemma relabel_reg t : t_reg (relabel t) = t_reg t.
Proof. now destruct t. Qed.
Lemma forest_relabel (P Q : rtree -> Prop) l : Forall (fun t => P t -> Q (relabel t)) l ->
  forall lo hi, forest P lo l hi -> forest Q lo (map relabel l) hi.
Proof.
  induction 1 as [|t l H _ IH]; intros lo hi; cbn [forest map]; [auto|]. intros (L & T & F).
  unfold t_end in *. rewrite relabel_reg. auto.
Qed.
Lemma nested_relabel t : tree_nested t -> tree_nested (relabel t).
Proof.
  induction t as [r n kids IH] using rtree_ind'. cbn [tree_nested relabel]. apply (forest_relabel tree_nested tree_nested _ IH).
Qed.

Lemma dc_relabel d : map relabel (dc_kids d) = w_dc d.
Proof.
  induction d as [t|k cs IH|k|l] using dcontent_ind'; try reflexivity. cbn [dc_kids w_dc]. rewrite map_map.
  apply map_ext_in. intros y I. rewrite Forall_forall in IH. cbn [relabel]. rewrite (IH y I). destruct (l_val y); reflexivity.
Qed.
Lemma inline_relabel i : map relabel (inline_kids i) = w_inline i.
Proof. destruct i; try reflexivity. apply (dc_relabel (DCDeco k cs)). Qed.
Lemma cont_relabel c : map relabel (container_trees c) = w_cont c.
Proof. unfold container_trees, w_cont. rewrite map_map. apply map_ext. intro y. cbn [relabel as_inline]. now rewrite inline_relabel. Qed.
Lemma block_relabel : (forall b, tableless b -> map relabel (block_kids false b) = w_block b) /\
  (forall i, tableless_item i -> map relabel (item_kids false i) = w_item i).
Proof.
  apply both_ind.
  - intros b NL T. destruct b; try reflexivity.
    + cbn [block_kids w_block]. unfold def_trees. rewrite map_flat_map. apply flat_map_ext. intro x. cbn [wrap map relabel as_inline].
      rewrite cont_relabel, map_map. f_equal. apply map_ext. intro y. cbn [relabel as_inline]. now rewrite cont_relabel.
    + apply cont_relabel.
    + exfalso. eapply NL. reflexivity.
    + cbn [block_kids w_block]. rewrite map_flat_map. apply flat_map_ext. intro c. apply cont_relabel.
    + destruct T.
  - intros items IH T. change (tableless (BList items)) with (all (fun x => tableless_item (l_val x)) items) in T.
    rewrite all_forall, Forall_forall in T. rewrite Forall_forall in IH. cbn [block_kids w_block]. rewrite map_map.
    apply map_ext_in. intros x I. exact (f_equal (RNode (l_reg x) (NItem (l_val x))) (IH x I (T x I))).
  - intros ty suf pos cs todo IH T. change (all (fun x => tableless (l_val x)) cs) in T.
    rewrite all_forall, Forall_forall in T. rewrite Forall_forall in IH. cbn [item_kids w_item]. rewrite map_map.
    apply map_ext_in. intros x I. exact (f_equal (RNode (l_reg x) (NBlock (l_val x))) (IH x I (T x I))).
Qed.
Lemma page_relabel p : all (fun x => tableless (l_val x)) p -> map relabel (page_trees false p) = map w_tree (page_children p).
Proof.
  rewrite all_forall, Forall_forall. intro T. unfold page_trees, page_children. rewrite !map_map. apply map_ext_in. intros x I.
  exact (f_equal (RNode (l_reg x) (NBlock (l_val x))) (proj1 block_relabel _ (T x I))).
Qed.

Lemma forest_text lo q hi : forest tree_nested lo (map w_tree q) hi -> in_text_order lo q hi.
Proof. revert lo. induction q as [|x q IH]; intro lo; cbn [map forest in_text_order]; [auto|]. intros (L & _ & F). split; [exact L|]. apply IH, F. Qed.
Lemma forest_kids q : forall lo hi, forest tree_nested lo (map w_tree q) hi -> forest tree_nested lo (map w_tree (flat_map kids_of q)) hi.
Proof.
  induction q as [|x q IH]; intros lo hi; cbn [map forest flat_map]; [auto|]. intros (L & T & F).
  rewrite map_app. apply forest_app with (mid := t_end (w_tree x)); [|apply IH, F].
  unfold w_tree in T, L. cbn [tree_nested t_reg] in T, L. rewrite w_children in T. unfold kids_of.
  apply (forest_mono tree_nested (r_off (l_reg x)) lo _ (r_off (l_reg x) + r_len (l_reg x))); auto.
Qed.
Lemma levels_order q ls lo hi : by_levels kids_of q ls -> forest tree_nested lo (map w_tree q) hi ->
  Forall (fun l => in_text_order lo l hi) ls.
Proof. induction 1 as [|q ls NE B IH]; intro F; constructor; [apply forest_text, F|]. apply IH, forest_kids, F. Qed.

(** * Positions *)

Lemma forest_in lo ts hi : forest tree_nested lo ts hi -> forall j t, nth_error ts j = Some t ->
  lo <= r_off (t_reg t) /\ t_end t <= hi /\ tree_nested t.
Proof.
  revert lo. induction ts as [|u ts IH]; intros lo F j t; [destruct j; discriminate|]. destruct F as (L & T & F).
  assert (E : t_end u <= hi).
  { clear -F. revert F. generalize (t_end u) as lo. induction ts as [|v ts IH]; intros lo F; [exact F|].
    destruct F as (L & _ & F). apply IH in F. unfold t_end in F. lia. }
  destruct j as [|j]; cbn [nth_error]; [intro I; injection I as ->; auto|]. intro I. destruct (IH _ F _ _ I) as (A & B & C).
  unfold t_end in A. repeat split; auto. lia.
Qed.
Lemma forest_apart lo ts hi : forest tree_nested lo ts hi -> forall j k s t, j < k -> nth_error ts j = Some s -> nth_error ts k = Some t ->
  t_end s <= r_off (t_reg t).
Proof.
  revert lo. induction ts as [|u ts IH]; intros lo F j k s t L; [destruct j; discriminate|]. destruct F as (_ & _ & F).
  destruct k as [|k]; [lia|]. destruct j as [|j]; cbn [nth_error].
  - intros I J. injection I as ->. exact (proj1 (forest_in _ _ _ F _ _ J)).
  - intros I J. apply (IH _ F j k); auto. lia.
Qed.
Lemma at_path_in a : forall ts lo hi t, forest tree_nested lo ts hi -> at_path a ts = Some t ->
  lo <= r_off (t_reg t) /\ t_end t <= hi.
Proof.
  induction a as [|i a IH]; intros ts lo hi t F; [discriminate|]. cbn [at_path]. destruct a as [|j a].
  - intro I. destruct (forest_in _ _ _ F _ _ I) as (A & B & _). auto.
  - destruct (nth_error ts i) as [[r n kids]|] eqn:E; [|discriminate]. intro P. destruct (forest_in _ _ _ F _ _ E) as (A & B & C).
    cbn [t_reg tree_nested t_end] in *. unfold t_end in B. cbn [t_reg] in B. destruct (IH _ _ _ _ C P). lia.
Qed.
Lemma paths_chain a : forall b ts lo hi s t i, forest tree_nested lo ts hi ->
  at_path a ts = Some s -> at_path b ts = Some t -> within (t_reg s) i -> within (t_reg t) i -> ancestor a b \/ ancestor b a.
Proof.
  assert (R : forall a ts lo hi s i j u, forest tree_nested lo ts hi -> nth_error ts j = Some u -> at_path (j :: a) ts = Some s ->
                within (t_reg s) i -> r_off (t_reg u) <= i < t_end u).
  { clear a. intros a ts lo hi s i j [r n kids] F E P W. destruct (forest_in _ _ _ F _ _ E) as (_ & _ & C). cbn [at_path] in P. destruct a as [|k a].
    - rewrite E in P. injection P as <-. exact W.
    - rewrite E in P. destruct (at_path_in _ _ _ _ _ C P). unfold t_end, within in *. cbn [t_reg] in *. lia. }
  induction a as [|j a IH]; intros b ts lo hi s t i F; [discriminate|]. destruct b as [|k b]; [discriminate|]. intros Pa Pb Ws Wt.
  assert (Ej : exists u, nth_error ts j = Some u).
  { cbn [at_path] in Pa. destruct (nth_error ts j); [eauto|]. destruct a; discriminate. }
  assert (Ek : exists v, nth_error ts k = Some v).
  { cbn [at_path] in Pb. destruct (nth_error ts k); [eauto|]. destruct b; discriminate. }
  destruct Ej as [u Ej], Ek as [v Ek]. pose proof (R _ _ _ _ _ _ _ _ F Ej Pa Ws) as Wu. pose proof (R _ _ _ _ _ _ _ _ F Ek Pb Wt) as Wv.
  assert (j = k) as <-.
  { destruct (Nat.lt_trichotomy j k) as [L|[E|L]]; [|exact E|]; exfalso.
    - pose proof (forest_apart _ _ _ F _ _ _ _ L Ej Ek). lia.
    - pose proof (forest_apart _ _ _ F _ _ _ _ L Ek Ej). lia. }
  destruct a as [|a1 a]; [left; exists b; reflexivity|]. destruct b as [|b1 b]; [right; exists (a1 :: a); reflexivity|].
  cbn [at_path] in Pa, Pb. rewrite Ej in Pa, Pb. destruct u as [r n kids]. destruct (forest_in _ _ _ F _ _ Ej) as (_ & _ & C).
  destruct (IH (b1 :: b) _ _ _ _ _ _ C Pa Pb Ws Wt) as [(c & E)|(c & E)]; [left|right]; exists c; cbn [app]; now f_equal.
Qed.

(** A byte that is not blank lies in a block. *)
Lemma slice_in {A} lo hi (l : list A) i c : nth_error l i = Some c -> lo <= i < hi -> In c (slice lo hi l).
Proof.
  intros E L. apply (nth_error_In _ (i - lo)). rewrite nth_error_slice by lia. rewrite <- E. f_equal. lia.
Qed.
Lemma covered_one input p : forall lo i c, page_covered input lo p -> lo <= i -> nth_error input i = Some c ->
  is_space c = false -> c <> b_nl -> c <> b_cr -> exists j x, nth_error p j = Some x /\ within (l_reg x) i.
Proof.
  assert (G : forall lo hi i c, ws_gap input lo hi -> nth_error input i = Some c -> is_space c = false -> c <> b_nl -> c <> b_cr ->
            lo <= i < hi -> False).
  { intros lo hi i c W E N1 N2 N3 L. unfold ws_gap in W. rewrite Forall_forall in W.
    destruct (W c (slice_in _ _ _ _ _ E L)) as [K|[K|K]]; congruence. }
  induction p as [|x p IH]; intros lo i c; cbn [page_covered].
  - intros [L W] I E N1 N2 N3. exfalso. apply (G _ _ _ _ W E N1 N2 N3). split; [exact I|]. apply nth_error_Some. congruence.
  - intros (L & W & _ & _ & C) I E N1 N2 N3. destruct (Nat.lt_ge_cases i (r_off (l_reg x))) as [K|K].
    + exfalso. apply (G _ _ _ _ W E N1 N2 N3). lia.
    + destruct (Nat.lt_ge_cases i (r_off (l_reg x) + r_len (l_reg x))) as [K'|K'].
      * exists 0, x. split; [reflexivity|]. split; assumption.
      * destruct (IH _ _ _ C K' E N1 N2 N3) as (j & y & J & Wy). exists (S j), y. auto.
Qed.

(** * Ranges *)

Lemma contains_iff r i : (e_off r + e_len r < usize_end)%N ->
  contains r i = Some true <-> (e_off r <= i < e_off r + e_len r)%N.
Proof.
  intro L. unfold contains, add_usize. apply N.ltb_lt in L. rewrite L. apply N.ltb_lt in L.
  destruct (N.leb_spec (e_off r) i); [|split; [discriminate|lia]].
  destruct (N.ltb_spec i (e_off r + e_len r)); split; try discriminate; try lia; auto.
Qed.
Lemma contains_total r i : (e_off r + e_len r < usize_end)%N -> exists b, contains r i = Some b.
Proof. intro L. unfold contains, add_usize. apply N.ltb_lt in L. rewrite L. destruct (_ <=? _)%N; eauto. Qed.
