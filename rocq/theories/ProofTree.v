(** From the layout predicates of SpecDoc and SpecBlock to the elements and the
    region tree of a page. *)
From Coq Require Import FinFun.
From Verif Require Import Base ModelSpan ModelComb ModelAst ModelTable ModelLink ModelInline
  SpecDoc SpecBlock SpecTree ProofBase ProofBytes ProofTable.

(** * Induction principles *)

Section DcInd.
Variable P : dcontent -> Prop.
Hypothesis H1 : forall t, P (DCText t).
Hypothesis H2 : forall k cs, Forall (fun x => P (l_val x)) cs -> P (DCDeco k cs).
Hypothesis H3 : forall k, P (DCKeyword k).
Hypothesis H4 : forall l, P (DCLink l).
Fixpoint dcontent_ind' (x : dcontent) : P x :=
  match x with
  | DCText t => H1 t
  | DCDeco k cs => H2 k cs ((fix go (l : list (located dcontent)) : Forall (fun x => P (l_val x)) l :=
      match l with [] => Forall_nil _ | y :: l' => Forall_cons _ (dcontent_ind' (l_val y)) (go l') end) cs)
  | DCKeyword k => H3 k
  | DCLink l => H4 l
  end.
End DcInd.

Section BlockInd.
Variable P : block -> Prop.
Variable Q : list_item -> Prop.
Hypothesis H1 : forall b, (forall items, b <> BList items) -> P b.
Hypothesis H2 : forall items, Forall (fun x => Q (l_val x)) items -> P (BList items).
Hypothesis H3 : forall ty suf pos cs todo, Forall (fun x => P (l_val x)) cs -> Q (ListItem ty suf pos cs todo).
Fixpoint block_ind' (b : block) : P b :=
  match b with
  | BList items => H2 items ((fix go (l : list (located list_item)) : Forall (fun x => Q (l_val x)) l :=
      match l with [] => Forall_nil _ | y :: l' => Forall_cons _ (item_ind' (l_val y)) (go l') end) items)
  | b' => H1 b' ltac:(intros ? E; discriminate E)
  end
with item_ind' (i : list_item) : Q i :=
  match i with
  | ListItem ty suf pos cs todo => H3 ty suf pos cs todo
      ((fix go (l : list (located block)) : Forall (fun x => P (l_val x)) l :=
      match l with [] => Forall_nil _ | y :: l' => Forall_cons _ (block_ind' (l_val y)) (go l') end) cs)
  end.
End BlockInd.

(** * Chains *)

Section Chains.
Context {A : Type}.
Variables (bd : nat -> Prop) (gap fin : nat -> nat -> Prop) (P : nat -> nat -> A -> Prop) (d : nat).
Hypothesis Hfin : forall a b, fin a b -> a <= b.

Lemma chain_le lo l hi : chain bd gap fin P d lo l hi -> lo <= hi.
Proof.
  revert lo. induction l as [|x l IH]; intros lo; cbn [chain]; [apply Hfin|].
  intros (H1 & _ & _ & _ & _ & _ & H). apply IH in H. lia.
Qed.

Lemma chain_members lo l hi :
  chain bd gap fin P d lo l hi ->
  Forall (fun x => lo <= r_off (l_reg x) /\ r_off (l_reg x) + r_len (l_reg x) <= hi /\
            r_depth (l_reg x) = d /\ 0 < r_len (l_reg x) /\
            bd (r_off (l_reg x)) /\ bd (r_off (l_reg x) + r_len (l_reg x)) /\
            P (r_off (l_reg x)) (r_off (l_reg x) + r_len (l_reg x)) (l_val x)) l.
Proof.
  revert lo. induction l as [|x l IH]; intros lo; cbn [chain]; constructor.
  - destruct H as (H1 & H2 & H3 & H4 & [H5 H6] & H7 & H8). apply chain_le in H8. auto 10.
  - destruct H as (H1 & H2 & H3 & H4 & [H5 H6] & H7 & H8). eapply Forall_impl; [|apply (IH _ H8)].
    cbv beta. intros y (K1 & K). split; [lia | exact K].
Qed.

Lemma chain_forest (f : A -> node) (kids : A -> list rtree) lo l hi :
  Forall (fun x => forall a b, a <= b -> P a b (l_val x) -> forest (tree_ok (S d)) a (kids (l_val x)) b) l ->
  chain bd gap fin P d lo l hi ->
  forest (tree_ok d) lo (map (fun x => RNode (l_reg x) (f (l_val x)) (kids (l_val x))) l) hi.
Proof.
  intro HF. revert lo. induction HF as [|x l Hx HF IH]; intros lo; cbn [chain map forest]; [apply Hfin|].
  intros (H1 & H2 & H3 & H4 & _ & H7 & H8). cbn [t_reg t_end tree_ok]. repeat split; auto. apply Hx; auto. lia.
Qed.

Lemma forest_map_cons (f : A -> node) (kids : A -> list rtree) lo l l' mid hi :
  Forall (fun x => forall a b, a <= b -> P a b (l_val x) -> forest (tree_ok (S d)) a (kids (l_val x)) b) l ->
  chain bd gap fin P d lo l mid -> forest (tree_ok d) mid l' hi ->
  forest (tree_ok d) lo (map (fun x => RNode (l_reg x) (f (l_val x)) (kids (l_val x))) l ++ l') hi.
Proof.
  intro HF. revert lo. induction HF as [|x l Hx HF IH]; intros lo; cbn [chain map forest app].
  - intros H1 H2. apply Hfin in H1. destruct l'; cbn [forest] in *; [lia|]. intuition lia.
  - intros (H1 & H2 & H3 & H4 & _ & H7 & H8) H. cbn [t_reg t_end tree_ok]. repeat split; auto. apply Hx; auto. lia.
Qed.
End Chains.

Lemma exact_le a b : exact a b -> a <= b. Proof. unfold exact. lia. Qed.
Lemma before_le a b : before a b -> a <= b. Proof. auto. Qed.

Lemma forest_mono (P : rtree -> Prop) lo lo' l hi hi' :
  lo' <= lo -> hi <= hi' -> forest P lo l hi -> forest P lo' l hi'.
Proof.
  revert lo lo'. induction l as [|t l IH]; intros lo lo' L1 L2; cbn [forest]; [lia|].
  intros (H1 & H2 & H3). split; [lia|]. split; auto. eapply IH; [|exact L2|exact H3]. lia.
Qed.

(** * Tables in order *)

Lemma flat_map_ext_in {A B} (f g : A -> list B) l :
  (forall a, In a l -> f a = g a) -> flat_map f l = flat_map g l.
Proof.
  induction l as [|a l IH]; intro H; [reflexivity|]. cbn [flat_map].
  rewrite (H a) by (now left). f_equal. apply IH. intros b Hb. apply H. now right.
Qed.

Lemma flat_map_seq_nth {A} (l : list A) n :
  length l <= n ->
  flat_map (fun i => match nth_error l i with Some x => [x] | None => [] end) (seq 0 n) = l.
Proof.
  intro H. assert (G : forall k m (l : list A), length l <= m ->
    flat_map (fun i => match nth_error l (i - k) with Some x => [x] | None => [] end) (seq k m) = l).
  { clear. intros k m. revert k. induction m as [|m IH]; intros k l Hl.
    - destruct l; [reflexivity | cbn in Hl; lia].
    - cbn [seq flat_map]. rewrite Nat.sub_diag. destruct l as [|x l].
      + cbn [nth_error app]. clear IH. replace [] with (@nil A) by reflexivity.
        assert (E : forall ks, flat_map (fun i => match nth_error (@nil A) (i - k) with Some x => [x] | None => [] end) ks = []).
        { induction ks as [|a ks IHk]; [reflexivity|]. cbn [flat_map]. rewrite IHk. now destruct (a - k). }
        apply E.
      + cbn [nth_error app]. f_equal. cbn in Hl. transitivity (flat_map (fun i => match nth_error l (i - S k) with Some x => [x] | None => [] end) (seq (S k) m)); [|apply IH; lia].
        apply flat_map_ext_in. intros i Hi. apply in_seq in Hi.
        replace (i - k) with (S (i - S k)) by lia. reflexivity. }
  etransitivity; [|exact (G 0 n l H)]. apply flat_map_ext. intro i. now rewrite Nat.sub_0_r.
Qed.

Lemma get_cell_rows rs m r c :
  cells_of rs m -> cells_get (CellPos r c) m =
    match nth_error rs r with Some row => nth_error (snd row) c | None => None end.
Proof.
  intros [Hnd H].
  destruct (cells_get (CellPos r c) m) as [x|] eqn:E.
  - apply cells_get_in in E; auto. apply H in E as (row & E1 & E2). now rewrite E1.
  - destruct (nth_error rs r) as [row|] eqn:E1; auto. destruct (nth_error (snd row) c) as [x|] eqn:E2; auto.
    assert (Hin : In (CellPos r c, x) m) by (apply H; eauto).
    apply (cells_get_in m (CellPos r c) x Hnd) in Hin. congruence.
Qed.

Lemma table_cells_rows rs t :
  cells_of rs (t_cells t) -> t_row_cnt t = length rs ->
  t_col_cnt t = list_max (map (fun r => length (snd r)) rs) ->
  table_cells t = concat (map snd rs).
Proof.
  intros Hc Hr Hk. unfold table_cells, get_cell.
  transitivity (flat_map (fun r => match nth_error rs r with Some row => snd row | None => [] end)
                         (seq 0 (t_row_cnt t))).
  - apply flat_map_ext_in. intros r Hin. apply in_seq in Hin.
    destruct (nth_error rs r) as [row|] eqn:E.
    + etransitivity; [|apply (flat_map_seq_nth (snd row) (t_col_cnt t))].
      * apply flat_map_ext. intro c. rewrite (get_cell_rows rs) by auto. now rewrite E.
      * rewrite Hk. assert (Hle := proj1 (list_max_le (map (fun r => length (snd r)) rs) _) (Nat.le_refl _)).
        rewrite Forall_forall in Hle. apply Hle. apply in_map_iff. exists row. split; auto.
        eapply nth_error_In; eauto.
    + apply nth_error_None in E. lia.
  - rewrite Hr. transitivity (concat (map snd
      (flat_map (fun i => match nth_error rs i with Some x => [x] | None => [] end) (seq 0 (length rs)))));
      [|now rewrite flat_map_seq_nth by lia].
    induction (seq 0 (length rs)) as [|a l IH]; [reflexivity|].
    cbn [flat_map]. rewrite map_app, concat_app, IH. f_equal. destruct (nth_error rs a); cbn; now rewrite ?app_nil_r.
Qed.

Section Tree.
Variable uri_parse : str -> option uri.
Variable date_parse : str -> option date.
Variable inner : str.
Variable bd : nat -> Prop.
Local Notation iok := (inline_ok uri_parse date_parse inner bd).
Local Notation dcok := (dc_ok uri_parse date_parse inner bd).
Local Notation cok := (container_ok uri_parse date_parse inner bd).
Local Notation bok := (block_ok uri_parse date_parse inner bd).
Local Notation tok := (item_ok uri_parse date_parse inner bd).
Local Notation text lo hi := (slice lo hi inner).

(** What holds of every element of a page. *)
Definition node_ok (d lo hi : nat) (n : node) : Prop :=
  match n with
  | NBlock b => exists top, bok top d lo hi b
  | NItem i => exists k, tok k d lo hi i
  | NInline x => iok d lo hi x
  | NDeco x => dcok d lo hi x
  | NCell c => cell_ok uri_parse date_parse inner bd d lo hi c
  | NTerm c => cok (S d) lo c (hi - 2)
  | NDef c => exists a b, lo <= a /\ b <= hi /\ cok (S d) a c b
  | NPair _ | NBundle _ => True
  end.

Definition elem_ok (p : region * node) : Prop :=
  let r := fst p in
  r_off r + r_len r <= length inner /\ bd (r_off r) /\
  match snd p with
  | NPair _ => True
  | NBundle _ => bd (r_off r + r_len r)
  | n => 0 < r_len r /\ bd (r_off r + r_len r) /\ node_ok (r_depth r) (r_off r) (r_off r + r_len r) n
  end.


(** * Proper nesting *)

Lemma slice_length_le {A} (l : list A) a b : length (slice a b l) <= b - a.
Proof. unfold slice. rewrite firstn_length. lia. Qed.

Lemma dc_forest x : forall d lo hi, lo <= hi -> dcok d lo hi x -> forest (tree_ok (S d)) lo (dc_kids x) hi.
Proof.
  induction x as [t|k cs IH|k|l] using dcontent_ind'; intros d lo hi L H; cbn [dc_kids]; try exact L.
  destruct H as (Hs & Hne & Hc).
  apply (forest_mono _ (lo + length (delim_of k)) lo _ (hi - length (delim_of k)) hi); try lia.
  eapply (chain_forest bd exact before (dcok (S d)) (S d) before_le NDeco dc_kids); [|exact Hc].
  eapply Forall_impl; [|exact IH]. cbv beta. intros y Hy a b Hab. now apply Hy.
Qed.

Lemma inline_forest x d lo hi : lo <= hi -> iok d lo hi x -> forest (tree_ok (S d)) lo (inline_kids x) hi.
Proof.
  intros L H. destruct x; try exact L. exact (dc_forest _ d lo hi L H).
Qed.

Lemma container_forest d lo c hi : cok d lo c hi -> forest (tree_ok d) lo (container_trees c) hi.
Proof.
  intros (_ & H & _). eapply (chain_forest bd exact exact (iok d) d exact_le NInline inline_kids); [|exact H].
  apply Forall_forall. intros x _ a b. apply inline_forest.
Qed.

Lemma container_forest_app d lo c mid l hi :
  cok d lo c mid -> forest (tree_ok d) mid l hi -> forest (tree_ok d) lo (container_trees c ++ l) hi.
Proof.
  intros (_ & H & _). eapply (forest_map_cons bd exact exact (iok d) d exact_le NInline inline_kids); [|exact H].
  apply Forall_forall. intros x _ a b. apply inline_forest.
Qed.

Lemma para_forest d lo ls hi :
  para_ok uri_parse date_parse inner bd d lo ls hi -> forest (tree_ok (S d)) lo (flat_map container_trees ls) hi.
Proof.
  revert lo. induction ls as [|c ls IH]; intro lo; cbn [para_ok flat_map forest]; [lia|].
  intros (a & t & e & mid & _ & -> & _ & _ & _ & Hc & H).
  apply (forest_mono _ (lo + length a) lo _ hi hi); try lia.
  eapply container_forest_app; [exact Hc|]. eapply forest_mono; [| |apply IH; exact H]; lia.
Qed.

Lemma text_fits lo hi l : text lo hi = l -> length l <= hi - lo.
Proof. intros <-. apply slice_length_le. Qed.

Lemma header_forest d lo hi h :
  header_ok uri_parse date_parse inner bd d lo hi h ->
  forest (tree_ok (S d)) lo (container_trees (h_content h)) hi.
Proof.
  intros (_ & Hl & sp & w1 & c & w2 & f & e & E & _ & _ & _ & _ & _ & _ & _ & _ & _ & _ & _ & H).
  cbv zeta in H. apply text_fits in E. rewrite !app_length, !repeat_length in E.
  eapply forest_mono; [| |apply (container_forest _ _ _ _ H)]; lia.
Qed.

Lemma def_line_forest d lo hi c :
  def_line_ok uri_parse date_parse inner bd d lo hi c -> forest (tree_ok (S d)) lo (container_trees c) hi.
Proof.
  intros (a & b & t & e & E & _ & _ & _ & _ & _ & _ & H). cbv zeta in H. apply text_fits in E.
  rewrite !app_length in E. cbn [length bs] in E. change (length (bs "::")) with 2 in E.
  assert (length b + length t <> 0).
  { destruct H as (Hne & Hc & _). destruct c as [|x c]; [congruence|]. destruct Hc as (L1 & L2 & _ & L3 & _ & _ & L).
    apply (chain_le _ _ _ _ _ exact_le) in L. unfold exact in *. lia. }
  eapply forest_mono; [| |apply (container_forest _ _ _ _ H)]; lia.
Qed.

Lemma def_lines_forest d lo l hi :
  chain bd exact exact (def_line_ok uri_parse date_parse inner bd d) d lo l hi ->
  forest (tree_ok d) lo (map (fun y => RNode (l_reg y) (NDef (l_val y)) (container_trees (l_val y))) l) hi.
Proof.
  intro H. eapply (chain_forest bd exact exact _ d exact_le NDef container_trees); [|exact H].
  apply Forall_forall. intros x _ a b _. apply def_line_forest.
Qed.

Lemma forest_app (P : rtree -> Prop) lo l1 mid l2 hi :
  forest P lo l1 mid -> forest P mid l2 hi -> forest P lo (l1 ++ l2) hi.
Proof.
  revert lo. induction l1 as [|t l1 IH]; intro lo; cbn [forest app].
  - intros L H. eapply forest_mono; [exact L | apply Nat.le_refl | exact H].
  - intros (H1 & H2 & H3) H. auto.
Qed.

Lemma def_forest d lo l hi :
  def_items_ok uri_parse date_parse inner bd d lo l hi -> forest (tree_ok d) lo (def_trees false l) hi.
Proof.
  revert lo. induction l as [|x l IH]; intro lo; cbn [def_items_ok]; [cbn; lia|].
  intros (mid & _ & Hx & Hl). unfold def_trees in *. cbn [flat_map].
  apply (forest_app _ lo _ mid); [|now apply IH]. clear IH Hl.
  unfold term_defs_ok in Hx. cbv zeta in *. cbn [wrap].
  destruct Hx as (L1 & _ & L2 & D1 & _ & _ & _ & _ & _ & Hc & _ & _ & L3 & _ & E2 & Hne & Hd & _).
  set (tlo := r_off (l_reg (td_term (l_val x)))) in *. set (tl := r_len (l_reg (td_term (l_val x)))) in *.
  cbn [forest t_reg t_end tree_ok]. fold tlo tl. split; [exact L1|]. split.
  { split; [exact D1|]. split; [lia|]. eapply forest_mono; [| |apply (container_forest _ _ _ _ Hc)]; lia. }
  unfold t_end. cbn [t_reg]. fold tlo tl.
  destruct Hd as [(f & o & E & F1 & F2 & F3 & F4 & _ & _ & F5)|[_ Hd]].
  - rewrite E. cbn [map forest t_reg t_end tree_ok]. rewrite F1. split; [lia|].
    destruct F3 as (b & t & Et & _ & _ & _ & _ & F3).
    assert (Hb : tlo + tl + length b <= tlo + tl + r_len (l_reg f) /\ 0 < r_len (l_reg f)).
    { destruct F3 as (F3 & F6 & _). destruct (l_val f) as [|y c]; [congruence|].
      destruct F6 as (K1 & K2 & _ & K3 & _ & _ & K4). apply (chain_le _ _ _ _ _ exact_le) in K4.
      unfold exact in *. lia. }
    split.
    + split; [exact F2|]. split; [lia|]. eapply forest_mono; [| |apply (container_forest _ _ _ _ F3)]; lia.
    + unfold t_end. cbn [t_reg]. rewrite F1.
      eapply forest_mono; [exact F4 | apply Nat.le_refl |]. apply def_lines_forest. exact F5.
  - eapply forest_mono; [exact L3 | apply Nat.le_refl |]. apply def_lines_forest. exact Hd.
Qed.

Lemma cell_forest d lo hi c :
  lo <= hi -> cell_ok uri_parse date_parse inner bd d lo hi c -> forest (tree_ok (S d)) lo (cell_kids c) hi.
Proof. intros L H. destruct c; try exact L. destruct H as [H _]. now apply container_forest. Qed.

Lemma rows_forest d lo rs hi :
  rows_ok uri_parse date_parse inner bd d lo rs hi ->
  forest (tree_ok d) lo (map (fun x => RNode (l_reg x) (NCell (l_val x)) (cell_kids (l_val x))) (concat (map snd rs))) hi.
Proof.
  revert lo. induction rs as [|r rs IH]; intro lo; cbn [rows_ok]; [cbn; lia|].
  intros (mid & _ & (_ & _ & _ & Hr) & Hrs). cbn [map concat]. rewrite map_app.
  apply (forest_app _ lo _ mid); [|now apply IH].
  apply (forest_mono _ (lo + length (fst r)) lo _ mid mid); try lia.
  eapply (chain_forest bd _ _ _ d _ NCell cell_kids); [|exact Hr].
  apply Forall_forall. intros x _ a b L. now apply cell_forest.
  Unshelve. cbv beta. intros a b [L _]. exact L.
Qed.

Lemma table_forest nested d lo hi t :
  table_ok uri_parse date_parse inner bd nested d lo hi t ->
  forest (tree_ok (S d)) lo
    (map (fun x => RNode (l_reg x) (NCell (l_val x)) (cell_kids (l_val x))) (table_cells t)) hi.
Proof.
  intros (first & rs & Hr & Hc & Er & Ec & _). rewrite (table_cells_rows (first :: rs) t Hc Er Ec).
  now apply rows_forest.
Qed.

Lemma block_forest b : forall top d lo hi, lo <= hi -> bok top d lo hi b -> forest (tree_ok (S d)) lo (block_kids false b) hi.
Proof.
  apply (block_ind'
    (fun b => forall top d lo hi, lo <= hi -> bok top d lo hi b -> forest (tree_ok (S d)) lo (block_kids false b) hi)
    (fun i => forall k d lo hi, lo <= hi -> tok k d lo hi i -> forest (tree_ok (S d)) lo (item_kids false i) hi)).
  - intros b' Hnl top d lo hi L H. destruct b'; cbn [block_kids]; try exact L.
    + destruct H as [_ H]. exact (def_forest _ _ _ _ H).
    + now apply header_forest.
    + now destruct (Hnl items).
    + destruct H as [_ H]. now apply para_forest.
    + eapply table_forest; exact H.
  - intros items IH top d lo hi L H. cbn [block_kids]. destruct H as (_ & _ & _ & k & Hc).
    eapply (chain_forest bd _ _ _ (S d) exact_le NItem (item_kids false)); [|exact Hc].
    eapply Forall_impl; [|exact IH]. cbv beta. intros x Hx a b0 Hab Ht. exact (Hx k _ _ _ Hab Ht).
  - intros ty suf pos cs todo IH k d lo hi L H. cbn [item_kids].
    destruct H as (_ & _ & ty' & pre & _ & Et & Hc). cbv zeta in *.
    eapply (forest_mono _ _ lo _ hi hi); [| apply Nat.le_refl |
      eapply (chain_forest bd _ _ _ (S d) exact_le NBlock (block_kids false)); [|exact Hc]]; [lia|].
    eapply Forall_impl; [|exact IH]. cbv beta. intros x Hx a b0 Hab Ht. exact (Hx false _ _ _ Hab Ht).
Qed.

Lemma page_forest p :
  page_ok uri_parse date_parse inner bd p -> forest (tree_ok 0) 0 (page_trees false p) (length inner).
Proof.
  intro H. eapply (chain_forest bd _ _ _ 0 _ NBlock (block_kids false)); [|exact H].
  apply Forall_forall. intros x _ a b Hab [_ Hb]. exact (block_forest _ _ _ _ _ Hab Hb).
  Unshelve. cbv beta. intros a b [L _]. exact L.
Qed.

(** * Every element *)

Definition plain (n : node) : Prop := match n with NPair _ | NBundle _ => False | _ => True end.
Definition nodes (ts : list rtree) : list (region * node) := flat_map tree_nodes ts.

Lemma nodes_app a b : nodes (a ++ b) = nodes a ++ nodes b.
Proof. apply flat_map_app. Qed.

Lemma elem_plain r n d lo hi :
  plain n -> hi <= length inner -> r = Region lo (hi - lo) d -> lo < hi -> bd lo -> bd hi -> node_ok d lo hi n ->
  elem_ok (r, n).
Proof.
  intros Hp Hh -> L H1 H2 H3. unfold elem_ok. cbn [fst snd r_off r_len r_depth].
  replace (lo + (hi - lo)) with hi by lia. split; auto. split; auto.
  destruct n; cbn in Hp; try contradiction; (split; [lia|]; split; auto).
Qed.

Lemma region_eta r : r = Region (r_off r) (r_off r + r_len r - r_off r) (r_depth r).
Proof. destruct r as [o l d]. cbn. f_equal. lia. Qed.

Lemma chain_nodes {A} (gap fin : nat -> nat -> Prop) (P : nat -> nat -> A -> Prop) d (f : A -> node) (kids : A -> list rtree) lo l hi :
  (forall a b, fin a b -> a <= b) -> (forall x, plain (f x)) ->
  (forall a b x, a < b -> P a b x -> node_ok d a b (f x)) ->
  Forall (fun x => forall a b, a < b -> b <= length inner -> P a b (l_val x) -> Forall elem_ok (nodes (kids (l_val x)))) l ->
  hi <= length inner -> chain bd gap fin P d lo l hi ->
  Forall elem_ok (nodes (map (fun x => RNode (l_reg x) (f (l_val x)) (kids (l_val x))) l)).
Proof.
  intros Hfin Hpl Hn HF Hh Hc. apply (chain_members bd gap fin P d Hfin) in Hc.
  induction HF as [|x l Hx HF IH]; cbn [map nodes flat_map tree_nodes]; [constructor|].
  inversion Hc as [|? ? (L1 & L2 & L3 & L4 & L5 & L6 & L7) Hc']; subst.
  rewrite <- app_comm_cons. constructor.
  - apply (elem_plain (l_reg x) _ (r_depth (l_reg x)) (r_off (l_reg x)) (r_off (l_reg x) + r_len (l_reg x)));
      auto using region_eta; try lia. apply Hn; auto. lia.
  - apply Forall_app. split; [|apply IH; auto]. eapply Hx; [| |exact L7]; lia.
Qed.

Lemma dc_nodes x : forall d lo hi, hi <= length inner -> dcok d lo hi x -> Forall elem_ok (nodes (dc_kids x)).
Proof.
  induction x as [t|k cs IH|k|l] using dcontent_ind'; intros d lo hi L H; cbn [dc_kids]; try constructor.
  destruct H as (Hs & Hne & Hc).
  eapply (chain_nodes exact before (dcok (S d)) (S d) NDeco dc_kids); [exact before_le | intros; exact I | auto | | | exact Hc].
  - eapply Forall_impl; [|exact IH]. cbv beta. intros y Hy a b _ Lb. now apply Hy.
  - lia.
Qed.

Lemma inline_nodes x d lo hi : hi <= length inner -> iok d lo hi x -> Forall elem_ok (nodes (inline_kids x)).
Proof. intros L H. destruct x; try constructor. exact (dc_nodes _ d lo hi L H). Qed.

Lemma container_nodes d lo c hi : hi <= length inner -> cok d lo c hi -> Forall elem_ok (nodes (container_trees c)).
Proof.
  intros L (_ & H & _). eapply (chain_nodes exact exact (iok d) d NInline inline_kids);
    [exact exact_le | intros; exact I | auto | | exact L | exact H].
  apply Forall_forall. intros x _ a b _ Lb. now apply inline_nodes.
Qed.

Lemma para_le d lo ls hi : para_ok uri_parse date_parse inner bd d lo ls hi -> lo <= hi.
Proof.
  revert lo. induction ls as [|c ls IH]; intro lo; cbn [para_ok]; [lia|].
  intros (a & t & e & mid & _ & -> & _ & _ & _ & Hc & H). apply IH in H. lia.
Qed.

Lemma para_nodes d lo ls hi :
  hi <= length inner -> para_ok uri_parse date_parse inner bd d lo ls hi ->
  Forall elem_ok (nodes (flat_map container_trees ls)).
Proof.
  intro L. revert lo. induction ls as [|c ls IH]; intro lo; cbn [para_ok flat_map]; [constructor|].
  intros (a & t & e & mid & _ & -> & _ & _ & _ & Hc & H). pose proof (para_le _ _ _ _ H).
  rewrite nodes_app. apply Forall_app. split; [|eapply IH; exact H].
  eapply container_nodes; [|exact Hc]. lia.
Qed.

Lemma def_line_bounds d lo hi c :
  def_line_ok uri_parse date_parse inner bd d lo hi c -> exists a b, lo <= a /\ b <= hi /\ cok (S d) a c b.
Proof.
  intros (a & b & t & e & E & _ & _ & _ & _ & _ & _ & H). cbv zeta in H. apply text_fits in E.
  rewrite !app_length in E. change (length (bs "::")) with 2 in E.
  assert (length b + length t <> 0).
  { destruct H as (Hne & Hc & _). destruct c as [|x c]; [congruence|]. destruct Hc as (L1 & L2 & _ & L3 & _ & _ & L).
    apply (chain_le _ _ _ _ _ exact_le) in L. unfold exact in *. lia. }
  do 2 eexists. split; [|split; [|exact H]]; lia.
Qed.

Lemma def_lines_nodes d lo l hi :
  hi <= length inner -> chain bd exact exact (def_line_ok uri_parse date_parse inner bd d) d lo l hi ->
  Forall elem_ok (nodes (map (fun y => RNode (l_reg y) (NDef (l_val y)) (container_trees (l_val y))) l)).
Proof.
  intros L H. eapply (chain_nodes exact exact _ d NDef container_trees);
    [exact exact_le | intros; exact I | | | exact L | exact H].
  - intros a b x _ Hx. now apply def_line_bounds in Hx.
  - apply Forall_forall. intros x _ a b _ Lb Hx. apply def_line_bounds in Hx as (u & v & _ & Lv & Hx).
    eapply container_nodes; [|exact Hx]. lia.
Qed.

Lemma def_items_le d lo l hi : def_items_ok uri_parse date_parse inner bd d lo l hi -> lo <= hi.
Proof.
  revert lo. induction l as [|x l IH]; intro lo; cbn [def_items_ok]; [lia|].
  intros (mid & H1 & _ & H2). apply IH in H2. lia.
Qed.

Lemma def_nodes d lo l hi :
  hi <= length inner -> def_items_ok uri_parse date_parse inner bd d lo l hi ->
  Forall elem_ok (nodes (def_trees true l)).
Proof.
  intro L. revert lo. induction l as [|x l IH]; intro lo; cbn [def_items_ok]; [constructor|].
  intros (mid & _ & Hx & Hl). pose proof (def_items_le _ _ _ _ Hl) as Lm.
  unfold def_trees in *. cbn [flat_map]. rewrite nodes_app. apply Forall_app. split; [|now apply (IH mid)].
  clear IH Hl. unfold term_defs_ok in Hx. cbv zeta in *. cbn [wrap].
  destruct Hx as (L1 & _ & L2 & D1 & B1 & B2 & B3 & B4 & _ & Hc & _ & _ & L3 & _ & E2 & Hne & Hd & Er).
  set (tlo := r_off (l_reg (td_term (l_val x)))) in *. set (tl := r_len (l_reg (td_term (l_val x)))) in *.
  set (bl := r_len (l_reg (td_defs (l_val x)))) in *. set (bo := r_off (l_reg (td_defs (l_val x)))) in *.
  unfold nodes. cbn [flat_map tree_nodes]. rewrite !app_nil_r. constructor.
  { unfold elem_ok. rewrite Er. cbn [fst snd r_off r_len]. split; [lia|]. split; auto. }
  rewrite <- app_comm_cons. constructor.
  { apply (elem_plain _ _ d tlo (tlo + tl)); [exact I | lia | | lia | assumption | assumption |].
    - rewrite (region_eta (l_reg (td_term (l_val x)))). fold tlo tl. now rewrite D1.
    - cbn [node_ok]. exact Hc. }
  apply Forall_app. split; [eapply container_nodes; [|exact Hc]; lia|]. constructor.
  { unfold elem_ok. cbn [fst snd]. fold bo bl. rewrite E2. split; [lia|]. split; auto. }
  fold (nodes (map (fun y => RNode (l_reg y) (NDef (l_val y)) (container_trees (l_val y))) (l_val (td_defs (l_val x))))).
  destruct Hd as [(f & o & E & F1 & F2 & F3 & F4 & F7 & _ & F5)|[_ Hd]].
  - rewrite E. cbn [map]. unfold nodes. cbn [flat_map tree_nodes].
    destruct F3 as (b & t & Et & _ & _ & _ & _ & F3).
    assert (Hb : tlo + tl + length b <= tlo + tl + r_len (l_reg f) /\ 0 < r_len (l_reg f)).
    { destruct F3 as (F3 & F6 & _). destruct (l_val f) as [|y c]; [congruence|].
      destruct F6 as (K1 & K2 & _ & K3 & _ & _ & K4). apply (chain_le _ _ _ _ _ exact_le) in K4.
      unfold exact in *. lia. }
    rewrite <- app_comm_cons. constructor.
    + apply (elem_plain _ _ d (tlo + tl) (tlo + tl + r_len (l_reg f))); [exact I | lia | | lia | assumption | assumption |].
      * etransitivity; [apply region_eta|]. now rewrite F1, F2.
      * cbn [node_ok]. do 2 eexists. split; [|split; [|exact F3]]; lia.
    + apply Forall_app. split; [eapply container_nodes; [|exact F3]; lia|].
      eapply def_lines_nodes; [|exact F5]. lia.
  - eapply def_lines_nodes; [|exact Hd]. lia.
Qed.

Lemma rows_le d lo rs hi : rows_ok uri_parse date_parse inner bd d lo rs hi -> lo <= hi.
Proof.
  revert lo. induction rs as [|r rs IH]; intro lo; cbn [rows_ok]; [lia|].
  intros (mid & H1 & _ & H2). apply IH in H2. lia.
Qed.

Lemma rows_nodes d lo rs hi :
  hi <= length inner -> rows_ok uri_parse date_parse inner bd d lo rs hi ->
  Forall elem_ok (nodes (map (fun x => RNode (l_reg x) (NCell (l_val x)) (cell_kids (l_val x))) (concat (map snd rs)))).
Proof.
  intro L. revert lo. induction rs as [|r rs IH]; intro lo; cbn [rows_ok]; [constructor|].
  intros (mid & _ & (_ & _ & _ & Hr) & Hrs). pose proof (rows_le _ _ _ _ Hrs).
  cbn [map concat]. rewrite map_app, nodes_app. apply Forall_app. split; [|eapply IH; exact Hrs].
  eapply (chain_nodes _ _ _ d NCell cell_kids); [ | | | | | exact Hr].
  - cbv beta. intros a b [K _]. exact K.
  - intros; exact I.
  - intros a b x _ Hx. exact Hx.
  - apply Forall_forall. intros x _ a b _ Lb Hx. destruct (l_val x); try constructor.
    destruct Hx as [Hx _]. eapply container_nodes; [|exact Hx]. exact Lb.
  - lia.
Qed.

Lemma block_nodes b : forall top d lo hi,
  lo <= hi -> hi <= length inner -> bok top d lo hi b -> Forall elem_ok (nodes (block_kids true b)).
Proof.
  apply (block_ind'
    (fun b => forall top d lo hi, lo <= hi -> hi <= length inner -> bok top d lo hi b ->
       Forall elem_ok (nodes (block_kids true b)))
    (fun i => forall k d lo hi, lo <= hi -> hi <= length inner -> tok k d lo hi i ->
       Forall elem_ok (nodes (item_kids true i)))).
  - intros b' Hnl top d lo hi Lo L H. destruct b'; cbn [block_kids]; try constructor.
    + destruct H as [_ H]. exact (def_nodes _ _ _ _ L H).
    + destruct H as (_ & Hl & sp & w1 & c & w2 & f & e & E & _ & _ & _ & _ & _ & _ & _ & _ & _ & _ & _ & H).
      cbv zeta in H. apply text_fits in E. rewrite !app_length, !repeat_length in E.
      eapply container_nodes; [|exact H]. lia.
    + now destruct (Hnl items).
    + destruct H as [_ H]. exact (para_nodes _ _ _ _ L H).
    + destruct H as (first & rs & Hr & Hc & Er & Ec & _). rewrite (table_cells_rows (first :: rs) t Hc Er Ec).
      exact (rows_nodes _ _ _ _ L Hr).
  - intros items IH top d lo hi _ L H. cbn [block_kids]. destruct H as (_ & _ & _ & k & Hc).
    eapply (chain_nodes _ exact _ (S d) NItem (item_kids true)); [exact exact_le | intros; exact I | | | exact L | exact Hc].
    + intros a b0 x _ Hx. exists k. exact Hx.
    + eapply Forall_impl; [|exact IH]. cbv beta. intros x Hx a b0 Hab Lb Ht. apply (Hx k (S d) a b0); auto; lia.
  - intros ty suf pos cs todo IH k d lo hi _ L H. cbn [item_kids].
    destruct H as (_ & _ & ty' & pre & _ & Et & Hc). cbv zeta in *.
    eapply (chain_nodes exact exact _ (S d) NBlock (block_kids true)); [exact exact_le | intros; exact I | | | exact L | exact Hc].
    + intros a b0 x _ Hx. exists false. exact Hx.
    + eapply Forall_impl; [|exact IH]. cbv beta. intros x Hx a b0 Hab Lb Ht. apply (Hx false (S d) a b0); auto; lia.
Qed.

Theorem page_elements p :
  page_ok uri_parse date_parse inner bd p -> Forall elem_ok (elements p).
Proof.
  intro H. unfold elements, page_trees.
  eapply (chain_nodes _ _ _ 0 NBlock (block_kids true)); [ | intros; exact I | | | | exact H].
  - cbv beta. intros a b [L _]. exact L.
  - intros a b x _ [_ Hx]. exists true. exact Hx.
  - apply Forall_forall. intros x _ a b Hab Lb [_ Hx]. apply (block_nodes _ true 0 a b); auto; lia.
  - lia.
Qed.

End Tree.
