(** Walks through elements, and positions. *)
From Verif Require Import Base ModelSpan ModelComb ModelAst ModelTable SpecDoc SpecTree SpecEq ModelTree SpecWalk
  ProofBase ProofTree ProofJson3 ProofMacro2.
From Coq Require Import Permutation.
Local Open Scope nat_scope.

(** * Induction on trees *)

Section TreeInd.
Variable P : rtree -> Prop.
Hypothesis H : forall r n kids, Forall P kids -> P (RNode r n kids).
Fixpoint rtree_ind' (t : rtree) : P t :=
  match t with
  | RNode r n kids => H r n kids ((fix go (l : list rtree) : Forall P l :=
      match l with [] => Forall_nil _ | k :: l' => Forall_cons _ (rtree_ind' k) (go l') end) kids)
  end.
End TreeInd.

(** * The tree of an element according to [into_children] *)

Fixpoint w_dc (d : dcontent) : list rtree :=
  match d with
  | DCDeco _ cs => map (fun y => RNode (l_reg y) (NInline (dc_inline (l_val y))) (w_dc (l_val y))) cs
  | _ => []
  end.
Definition w_inline (i : inline) : list rtree :=
  match i with
  | IDeco k cs => w_dc (DCDeco k cs)
  | _ => []
  end.
Definition w_cont (c : container) : list rtree :=
  map (fun x => RNode (l_reg x) (NInline (l_val x)) (w_inline (l_val x))) c.
Fixpoint w_block (b : block) : list rtree :=
  match b with
  | BDefList d => flat_map (fun x =>
      RNode (l_reg (td_term (l_val x))) (NTerm (l_val (td_term (l_val x)))) (w_cont (l_val (td_term (l_val x)))) ::
      map (fun y => RNode (l_reg y) (NDef (l_val y)) (w_cont (l_val y))) (l_val (td_defs (l_val x)))) d
  | BHeader h => w_cont (h_content h)
  | BList items => map (fun x => RNode (l_reg x) (NItem (l_val x)) (w_item (l_val x))) items
  | BParagraph ls => flat_map w_cont ls
  | BTable t => flat_map (fun kv => match l_val (snd kv) with CContent c => w_cont c | _ => [] end) (t_cells t)
  | _ => []
  end
with w_item (i : list_item) : list rtree :=
  match i with
  | ListItem _ _ _ cs _ => map (fun x => RNode (l_reg x) (NBlock (l_val x)) (w_block (l_val x))) cs
  end.
Definition w_kids (e : element) : list rtree :=
  match e with
  | EBlock b => w_block b
  | EInline i => w_inline i
  | EInlineBlock (IBItem i) => w_item i
  | EInlineBlock (IBTerm c) | EInlineBlock (IBDef c) => w_cont c
  end.
Definition w_tree (x : located element) : rtree := RNode (l_reg x) (node_of (l_val x)) (w_kids (l_val x)).

Lemma w_dc_inline d : w_dc d = w_inline (dc_inline d).
Proof. now destruct d. Qed.
Lemma map_flat_map {A B C} (f : B -> C) (g : A -> list B) l : map f (flat_map g l) = flat_map (fun x => map f (g x)) l.
Proof. induction l as [|x l IH]; cbn [flat_map map]; [reflexivity|]. now rewrite map_app, IH. Qed.
Lemma w_cont_tree c : map w_tree (map (lmap EInline) c) = w_cont c.
Proof. rewrite map_map. apply map_ext. intros [v r]. reflexivity. Qed.
Lemma w_children e : w_kids e = map w_tree (element_children e).
Proof.
  destruct e as [b|i|[i|c|c]]; cbn [w_kids element_children inline_block_children].
  - destruct b; try reflexivity.
    + cbn [w_block block_children]. unfold dl_children. rewrite map_map, map_flat_map. apply flat_map_ext. intros [t r].
      unfold td_children. cbn [l_val map]. f_equal. rewrite map_map. apply map_ext. intros [v q]. reflexivity.
    + cbn [w_block block_children]. symmetry. apply w_cont_tree.
    + cbn [w_block block_children]. unfold list_children. rewrite !map_map. apply map_ext. intros [v r]. reflexivity.
    + cbn [w_block block_children]. unfold paragraph_children, container_children. rewrite map_map, map_flat_map.
      apply flat_map_ext. intro c. rewrite <- w_cont_tree, map_map. apply map_ext. intros [v r]. reflexivity.
    + cbn [w_block block_children]. unfold table_children, cell_children, container_children. rewrite map_map, map_flat_map.
      apply flat_map_ext. intros [k [c r]]. cbn [snd l_val]. destruct c; reflexivity.
  - destruct i; try reflexivity. cbn [w_inline inline_children w_dc]. rewrite !map_map. apply map_ext. intros [v r].
    unfold w_tree. cbn [lmap l_val l_reg node_of w_kids]. now rewrite w_dc_inline.
  - destruct i as [ty suf pos cs todo]. unfold item_children. cbn [w_item li_contents].
    rewrite map_map. apply map_ext. intros [v r]. reflexivity.
  - symmetry. apply w_cont_tree.
  - symmetry. apply w_cont_tree.
Qed.

(** * The loop *)

Definition w_nodes (q : list (located element)) : list (region * node) := flat_map tree_nodes (map w_tree q).
Lemma w_nodes_cons x q : w_nodes (x :: q) = ((l_reg x, node_of (l_val x)) :: w_nodes (element_children (l_val x))) ++ w_nodes q.
Proof. unfold w_nodes. cbn [map flat_map w_tree tree_nodes]. now rewrite w_children. Qed.
Lemma w_nodes_app a b : w_nodes (a ++ b) = w_nodes a ++ w_nodes b.
Proof. unfold w_nodes. now rewrite map_app, flat_map_app. Qed.

Lemma descend_some n : forall q, length (w_nodes q) <= n -> exists l, descend n q = Some l.
Proof.
  induction n as [|n IH]; intros [|x q]; cbn [descend]; try (eexists; reflexivity).
  - rewrite w_nodes_cons. cbn [app length]. lia.
  - rewrite w_nodes_cons, app_length. cbn [length]. intro L.
    destruct (IH (q ++ element_children (l_val x))) as [l E]; [rewrite w_nodes_app, app_length; lia|].
    rewrite E. eexists. reflexivity.
Qed.
Lemma descend_nodes n : forall q l, descend n q = Some l -> Permutation (visited l) (w_nodes q).
Proof.
  induction n as [|n IH]; intros [|x q] l; cbn [descend]; try discriminate; try (intro E; injection E as <-; constructor).
  destruct (descend n (q ++ element_children (l_val x))) as [m|] eqn:E; [|discriminate]. intro F. injection F as <-.
  rewrite w_nodes_cons. cbn [visited map app]. constructor. apply IH in E. rewrite w_nodes_app in E.
  etransitivity; [exact E|]. apply Permutation_app_comm.
Qed.
Lemma descend_more n : forall q l m, descend n q = Some l -> n <= m -> descend m q = Some l.
Proof.
  induction n as [|n IH]; intros [|x q] l m; cbn [descend]; try discriminate; try (intros E _; destruct m; exact E).
  destruct (descend n (q ++ element_children (l_val x))) as [k|] eqn:E; [|discriminate]. intros F L.
  destruct m as [|m]; [lia|]. cbn [descend]. rewrite (IH _ _ m E); [exact F|lia].
Qed.

(** Level order. *)
Definition kids_of (x : located element) : list (located element) := element_children (l_val x).
Lemma descend_app n : forall a b l, descend n (a ++ b) = Some l ->
  exists k m, k <= n /\ l = a ++ m /\ descend k (b ++ flat_map kids_of a) = Some m.
Proof.
  induction n as [|n IH]; intros [|x a] b l; cbn [app].
  - intro E. exists 0, l. rewrite app_nil_r. auto.
  - cbn [descend]. discriminate.
  - intro E. exists (S n), l. cbn [flat_map]. rewrite app_nil_r. auto.
  - cbn [descend]. destruct (descend n ((a ++ b) ++ element_children (l_val x))) as [k|] eqn:E; [|discriminate].
    intro F. injection F as <-. rewrite <- app_assoc in E. apply IH in E as (j & m & L & -> & D).
    exists j, m. repeat split; [lia|]. cbn [flat_map]. rewrite <- D. f_equal. unfold kids_of at 2. now rewrite <- app_assoc.
Qed.
Lemma descend_levels n : forall q l, descend n q = Some l -> exists ls, by_levels kids_of q ls /\ l = concat ls.
Proof.
  induction n as [n IH] using lt_wf_ind. intros [|x q] l E.
  - exists []. split; [constructor|]. destruct n; cbn [descend] in E; now injection E as <-.
  - destruct n as [|n]; [discriminate|]. cbn [descend] in E.
    destruct (descend n (q ++ element_children (l_val x))) as [k|] eqn:D; [|discriminate]. injection E as <-.
    apply descend_app in D as (j & m & L & -> & D). destruct (IH j ltac:(lia) _ _ D) as (ls & B & ->).
    exists ((x :: q) :: ls). split; [|reflexivity]. constructor; [discriminate|]. exact B.
Qed.

(** * The elements of the page *)

Lemma perm_flat {A B} (f g : A -> list B) l : Forall (fun x => Permutation (f x) (g x)) l -> Permutation (flat_map f l) (flat_map g l).
Proof. induction 1 as [|x l H _ IH]; cbn [flat_map]; [constructor|]. now apply Permutation_app. Qed.
Lemma perm_flat_swap {A B} (f : A -> list B) l m : Permutation l m -> Permutation (flat_map f l) (flat_map f m).
Proof. intro H. now apply Permutation_flat_map. Qed.

Definition listed (l : list rtree) : list (region * node) :=
  map (fun rn => (fst rn, as_inline (snd rn))) (filter (fun rn => is_element (snd rn)) (flat_map tree_nodes l)).
Lemma listed_app a b : listed (a ++ b) = listed a ++ listed b.
Proof. unfold listed. now rewrite flat_map_app, filter_app, map_app. Qed.
Lemma listed_flat {A} (f : A -> list rtree) l : listed (flat_map f l) = flat_map (fun x => listed (f x)) l.
Proof. induction l as [|x l IH]; cbn [flat_map]; [reflexivity|]. now rewrite listed_app, IH. Qed.
Lemma listed_map {A} (f : A -> rtree) l : listed (map f l) = flat_map (fun x => listed [f x]) l.
Proof. induction l as [|x l IH]; cbn [flat_map map]; [reflexivity|]. change (f x :: map f l) with ([f x] ++ map f l). now rewrite listed_app, IH. Qed.
Lemma listed_one r n kids : listed [RNode r n kids] = (if is_element n then [(r, as_inline n)] else []) ++ listed kids.
Proof. unfold listed. cbn [flat_map tree_nodes]. rewrite app_nil_r. cbn [filter snd]. destruct (is_element n); reflexivity. Qed.

Definition wn (l : list rtree) : list (region * node) := flat_map tree_nodes l.
Lemma wn_flat {A} (f : A -> list rtree) l : wn (flat_map f l) = flat_map (fun x => wn (f x)) l.
Proof. unfold wn. induction l as [|x l IH]; cbn [flat_map]; [reflexivity|]. now rewrite flat_map_app, IH. Qed.
Lemma wn_map {A} (f : A -> rtree) l : wn (map f l) = flat_map (fun x => tree_nodes (f x)) l.
Proof. unfold wn. induction l as [|x l IH]; cbn [flat_map map]; [reflexivity|]. now rewrite IH. Qed.

Lemma dc_listed d : listed (dc_kids d) = wn (w_dc d).
Proof.
  induction d as [t|k cs IH|k|l] using dcontent_ind'; try reflexivity. cbn [dc_kids w_dc]. rewrite listed_map, wn_map.
  apply flat_map_ext_in. intros y I. rewrite Forall_forall in IH. specialize (IH y I). rewrite listed_one. cbn [is_element as_inline tree_nodes app].
  rewrite IH. destruct (l_val y); reflexivity.
Qed.
Lemma inline_listed i : listed (inline_kids i) = wn (w_inline i).
Proof. destruct i; try reflexivity. apply (dc_listed (DCDeco k cs)). Qed.
Lemma cont_listed c : listed (container_trees c) = wn (w_cont c).
Proof.
  unfold container_trees, w_cont. rewrite listed_map, wn_map. apply flat_map_ext. intro y. rewrite listed_one, inline_listed. reflexivity.
Qed.

(** Looking up every position of a table finds every cell once. *)
Lemma lookup_all m : forall ks, NoDup ks -> keyed m -> (forall k x, In (k, x) m -> In k ks) ->
  Permutation (flat_map (fun k => match cells_get k m with Some x => [x] | None => [] end) ks) (map snd m).
Proof.
  induction m as [|[k v] m IH]; intros ks N K C; cbn [map snd].
  - replace (flat_map _ ks) with (@nil (located cell)); [constructor|]. clear. induction ks; [reflexivity|]. exact IHks.
  - inversion K as [|? ? NI K']; subst. destruct (in_split k ks (C k v (or_introl eq_refl))) as (a & b & ->).
    assert (Nk : ~ In k (a ++ b) /\ NoDup (a ++ b)) by (split; [now apply NoDup_remove_2|now apply NoDup_remove_1 in N]).
    destruct Nk as [Nk N']. rewrite flat_map_app. cbn [flat_map cells_get].
    assert (R : cellpos_eqb k k = true) by (unfold cellpos_eqb; now rewrite !Nat.eqb_refl). rewrite R. cbn [app].
    assert (S : forall l, ~ In k l -> flat_map (fun q => match (if cellpos_eqb q k then Some v else cells_get q m) with Some x => [x] | None => [] end) l
                      = flat_map (fun q => match cells_get q m with Some x => [x] | None => [] end) l).
    { intros l NIl. apply flat_map_ext_in. intros q I. destruct (cellpos_eqb q k) eqn:E; [|reflexivity].
      exfalso. apply NIl. unfold cellpos_eqb in E. apply andb_true_iff in E as [E1 E2]. apply Nat.eqb_eq in E1, E2.
      destruct q, k; cbn in *; subst; auto. }
    rewrite !S; [|intro; apply Nk; apply in_or_app; auto..]. rewrite <- Permutation_middle. constructor.
    rewrite <- flat_map_app. apply IH; auto. intros q x I. specialize (C q x (or_intror I)).
    apply in_app_or in C as [C|[C|C]]; [apply in_or_app; auto| |apply in_or_app; auto].
    exfalso. subst q. apply NI. apply (in_map fst) in I. exact I.
Qed.
Lemma NoDup_grid n m : NoDup (flat_map (fun r => map (CellPos r) (seq 0 m)) (seq 0 n)).
Proof.
  assert (G : forall a, NoDup (flat_map (fun r => map (CellPos r) (seq 0 m)) (seq a n))); [|apply G].
  induction n as [|n IH]; intro a; cbn [seq flat_map]; [constructor|].
  assert (J : forall r l, NoDup l -> NoDup (map (CellPos r) l)).
  { intros r l. induction 1 as [|x l NI _ IH2]; [constructor|]. cbn [map]. constructor; [|exact IH2].
    intro I. apply in_map_iff in I as (y & E & I). injection E as ->. auto. }
  specialize (IH (S a)). assert (D : forall x, In x (map (CellPos a) (seq 0 m)) -> ~ In x (flat_map (fun r => map (CellPos r) (seq 0 m)) (seq (S a) n))).
  { intros x I1 I2. apply in_map_iff in I1 as (c & <- & _). apply in_flat_map in I2 as (r & I2 & I3).
    apply in_map_iff in I3 as (c' & E & _). injection E as E _. subst r. apply in_seq in I2. lia. }
  revert D. generalize (J a (seq 0 m) (seq_NoDup m 0)). generalize (map (CellPos a) (seq 0 m)) as l. clear J.
  induction l as [|x l IH2]; intros Nl D; cbn [app]; [exact IH|]. inversion Nl; subst. constructor.
  - intro I. apply in_app_or in I as [I|I]; [auto|]. apply (D x); [now left|exact I].
  - apply IH2; auto. intros y I. apply D. now right.
Qed.
Lemma flat_map_flat {A B C} (f : B -> list C) (g : A -> list B) l : flat_map f (flat_map g l) = flat_map (fun x => flat_map f (g x)) l.
Proof. induction l as [|x l IH]; cbn [flat_map]; [reflexivity|]. now rewrite flat_map_app, IH. Qed.
Lemma flat_map_map {A B C} (f : B -> list C) (g : A -> B) l : flat_map f (map g l) = flat_map (fun x => f (g x)) l.
Proof. induction l as [|x l IH]; cbn [flat_map map]; [reflexivity|]. now rewrite IH. Qed.
Lemma cells_perm t : keyed (t_cells t) -> counted t -> Permutation (table_cells t) (map snd (t_cells t)).
Proof.
  intros K [R C]. rewrite <- (lookup_all (t_cells t) (flat_map (fun r => map (CellPos r) (seq 0 (t_col_cnt t))) (seq 0 (t_row_cnt t)))).
  - rewrite flat_map_flat. unfold table_cells, get_cell.
    erewrite flat_map_ext; [apply Permutation_refl|]. intro r. cbn beta. symmetry. apply flat_map_map.
  - apply NoDup_grid.
  - exact K.
  - intros [r c] x I. apply in_flat_map. exists r. split.
    + apply in_seq. pose proof (proj1 (R _) (Nat.le_refl _) _ _ I). cbn in *. lia.
    + apply in_map, in_seq. pose proof (proj1 (C _) (Nat.le_refl _) _ _ I). cbn in *. lia.
Qed.

Lemma block_listed : (forall b, ok_block b -> Permutation (listed (block_kids true b)) (wn (w_block b))) /\
  (forall i, ok_item i -> Permutation (listed (item_kids true i)) (wn (w_item i))).
Proof.
  apply both_ind.
  - intros b NL O. destruct b; try apply Permutation_refl.
    + cbn [block_kids w_block]. unfold def_trees. rewrite listed_flat, wn_flat. apply perm_flat, Forall_forall. intros x _.
      cbn [wrap]. rewrite listed_one. cbn [is_element app].
      match goal with |- Permutation (listed (?a :: ?l)) _ => change (a :: l) with ([a] ++ l) end.
      rewrite listed_app, !listed_one. cbn [is_element as_inline app]. rewrite cont_listed.
      match goal with |- Permutation _ (wn (?a :: ?l)) => change (wn (a :: l)) with (tree_nodes a ++ wn l) end.
      cbn [tree_nodes app]. constructor. apply Permutation_app; [apply Permutation_refl|].
      rewrite listed_map, wn_map. apply perm_flat, Forall_forall. intros y _. rewrite listed_one, cont_listed. apply Permutation_refl.
    + cbn [block_kids w_block]. rewrite cont_listed. apply Permutation_refl.
    + exfalso. eapply NL. reflexivity.
    + cbn [block_kids w_block]. rewrite listed_flat, wn_flat. apply perm_flat, Forall_forall. intros c _. rewrite cont_listed. apply Permutation_refl.
    + cbn [block_kids w_block]. destruct O as (K & C & _). rewrite listed_map, wn_flat.
      rewrite (perm_flat_swap _ _ _ (cells_perm t K C)), flat_map_map. apply perm_flat, Forall_forall. intros [k [c r]] _.
      cbn [snd l_val l_reg]. rewrite listed_one. cbn [is_element app]. destruct c; try apply Permutation_refl. cbn [cell_kids].
      rewrite cont_listed. apply Permutation_refl.
  - intros items IH O. cbn [block_kids w_block]. rewrite listed_map, wn_map. apply perm_flat, Forall_forall. intros x I.
    rewrite Forall_forall in IH. specialize (IH x I). change (ok_block (BList items)) with (all (fun x => ok_item (l_val x)) items) in O.
    rewrite all_forall, Forall_forall in O. specialize (IH (O x I)). rewrite listed_one. cbn [is_element as_inline app tree_nodes]. constructor. exact IH.
  - intros ty suf pos cs todo IH O. cbn [item_kids w_item]. rewrite listed_map, wn_map. apply perm_flat, Forall_forall. intros x I.
    rewrite Forall_forall in IH. specialize (IH x I). change (all (fun x => ok_block (l_val x)) cs) in O.
    rewrite all_forall, Forall_forall in O. specialize (IH (O x I)). rewrite listed_one. cbn [is_element as_inline app tree_nodes]. constructor. exact IH.
Qed.
Lemma page_listed p : ok_page p -> Permutation (all_elements p) (w_nodes (page_children p)).
Proof.
  intro O. change (all_elements p) with (listed (page_trees true p)). unfold w_nodes, page_children, page_trees. rewrite map_map, listed_map.
  fold (wn (map (fun x => w_tree (lmap EBlock x)) p)). rewrite wn_map. apply perm_flat, Forall_forall. intros x I.
  unfold ok_page in O. rewrite all_forall, Forall_forall in O. rewrite listed_one. cbn [is_element as_inline app]. unfold w_tree. cbn [tree_nodes l_reg lmap l_val node_of w_kids].
  constructor. apply block_listed, O, I.
Qed.
