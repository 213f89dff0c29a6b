(** Pages that their text describes are values of the Rust types, and are
    printed alike when they say the same. *)
From Verif Require Import Base ModelSpan ModelComb ModelAst ModelTable ModelLink ModelInline ModelBlock ModelElem ModelVimwiki
  SpecDoc SpecBlock SpecEq SpecRound ProofBase ProofTree ProofEq ProofRound ProofRound10 ProofYield ProofSame ProofClaims.
From Verif Require SpecElem ProofRound15 ProofEq4.
Local Open Scope nat_scope.

(** * What is displayed is part of the content *)

Section Shown.
Variable cu : uri -> uri.
Local Notation sm := (fun u : uri => u).
Local Notation nc := (n_cont sm nowhere).
Local Notation nb := (n_block sm nowhere nc).
Local Notation ni := (n_item sm nowhere nc).
Local Notation sb := (n_block cu nowhere as_text).
Local Notation si := (n_item cu nowhere as_text).
Lemma map_same {A B C} (f : B -> C) (g : A -> B) (h : A -> C) l : Forall (fun x => f (g x) = h x) l -> map f (map g l) = map h l.
Proof. intro F. rewrite map_map. apply map_ext_Forall. exact F. Qed.
Lemma map_same_all {A B C} (f : B -> C) (g : A -> B) (h : A -> C) l : (forall x, f (g x) = h x) -> map f (map g l) = map h l.
Proof. intro F. apply map_same, Forall_all, F. Qed.
Lemma n_map_twice m : n_map (n_map m) = n_map m.
Proof. apply by_key_twice. exact str_leb_total. Qed.
Lemma desc_both d : n_desc cu (n_desc sm d) = n_desc cu d
with data_both d : n_data cu (n_data sm d) = n_data cu d.
Proof.
  - destruct d as [t|x]; [reflexivity|]. cbn [n_desc]. f_equal. exact (data_both x).
  - destruct d as [u d p]. cbn [n_data]. f_equal; [destruct d as [d|]; [f_equal; exact (desc_both d)|reflexivity]|].
    destruct p as [p|]; [|reflexivity]. cbn [option_map]. f_equal. apply n_map_twice.
Qed.
Lemma link_both l : n_link cu (n_link sm l) = n_link cu l.
Proof. destruct l; cbn [n_link]; now rewrite data_both. Qed.
Lemma dc_both c : n_dc cu nowhere (n_dc sm nowhere c) = n_dc cu nowhere c.
Proof.
  induction c as [t|k cs IH|k|l] using dcontent_ind'; try reflexivity; cbn [n_dc]; f_equal; [|apply link_both].
  apply map_same. eapply Forall_impl; [|exact IH]. intros x E. unfold n_loc. cbn [l_val l_reg]. now rewrite E.
Qed.
Lemma cont_both c : n_cont cu nowhere (nc c) = n_cont cu nowhere c.
Proof.
  apply map_same_all. intros [[t|k cs|k|l|ts|t|t|m] r]; try reflexivity; unfold n_loc; cbn [l_val l_reg n_inline]; f_equal; f_equal; [|apply link_both].
  apply map_same_all. intro x. unfold n_loc. cbn [l_val l_reg]. now rewrite dc_both.
Qed.
Lemma text_both c : as_text (nc c) = as_text c.
Proof. unfold as_text. now rewrite ProofRound15.cont_keeps. Qed.
Lemma put_map {K V W} (leb : K -> K -> bool) (f : V -> W) p l :
  map (fun kv => (fst kv, f (snd kv))) (put leb p l) = put leb (fst p, f (snd p)) (map (fun kv => (fst kv, f (snd kv))) l).
Proof. induction l as [|q l IH]; [reflexivity|]. cbn [put map fst]. destruct (leb (fst p) (fst q)); [reflexivity|]. cbn [map]. now rewrite IH. Qed.
Lemma by_key_map {K V W} (leb : K -> K -> bool) (f : V -> W) l :
  map (fun kv => (fst kv, f (snd kv))) (by_key leb l) = by_key leb (map (fun kv => (fst kv, f (snd kv))) l).
Proof. induction l as [|q l IH]; [reflexivity|]. unfold by_key in *. cbn [fold_right map]. now rewrite put_map, IH. Qed.
Lemma table_both t : n_table cu nowhere (n_table sm nowhere t) = n_table cu nowhere t.
Proof.
  unfold n_table. cbn [t_cells t_row_cnt t_col_cnt t_centered]. f_equal.
  rewrite (by_key_map pos_leb (n_loc nowhere (n_cell cu nowhere))), by_key_twice by exact pos_leb_total. f_equal.
  apply map_same_all. intros [k [c r]]. unfold n_loc. cbn [fst snd l_val l_reg]. f_equal. f_equal. destruct c; try reflexivity. cbn [n_cell]. now rewrite cont_both.
Qed.
Lemma block_both b : sb (nb b) = sb b.
Proof.
  revert b. apply (block_ind' (fun b => sb (nb b) = sb b) (fun i => si (ni i) = si i)).
  - intros b Hnl. destruct b as [ls|d| |h|items|m|ls|p|c|t]; try reflexivity.
    + cbn [n_block]. f_equal. apply map_same_all. intros [[t ds] r]. unfold n_td, n_loc. cbn [l_val l_reg td_term td_defs]. rewrite text_both. do 3 f_equal.
      apply map_same_all. intro x. unfold n_loc. cbn [l_val l_reg]. now rewrite text_both.
    + cbn [n_block]. unfold n_header. cbn [h_content h_level h_centered]. now rewrite cont_both.
    + now destruct (Hnl items).
    + cbn [n_block]. f_equal. apply map_same_all, cont_both.
    + cbn [n_block cb_lang cb_meta cb_lines]. now rewrite n_map_twice.
    + cbn [n_block]. now rewrite table_both.
  - intros items IH. change (BList (map (n_loc nowhere si) (map (n_loc nowhere ni) items)) = BList (map (n_loc nowhere si) items)). f_equal.
    apply map_same. eapply Forall_impl; [|exact IH]. intros x E. unfold n_loc. cbn [l_val l_reg]. now rewrite E.
  - intros ty suf pos cs todo IH. change (ListItem ty suf pos (map (n_loc nowhere sb) (map (n_loc nowhere nb) cs)) todo = ListItem ty suf pos (map (n_loc nowhere sb) cs) todo). f_equal.
    apply map_same. eapply Forall_impl; [|exact IH]. intros x E. unfold n_loc. cbn [l_val l_reg]. now rewrite E.
Qed.
Lemma content_both p : content_of cu (full_content_of sm p) = content_of cu p.
Proof. apply map_same_all. intro x. unfold n_loc. cbn [l_val l_reg]. now rewrite block_both. Qed.
Lemma content_same p q : full_content_of sm p = full_content_of sm q -> content_of cu p = content_of cu q.
Proof. intro E. now rewrite <- content_both, E, content_both. Qed.
End Shown.

(** Without definition lists there is no difference. *)
Section NoLists.
Local Notation sm := (fun u : uri => u).
Local Notation nc := (n_cont sm nowhere).
Lemma block_full b : values (fun _ => False) b -> n_block sm nowhere as_text b = n_block sm nowhere nc b.
Proof.
  revert b. apply (block_ind' (fun b => values (fun _ => False) b -> n_block sm nowhere as_text b = n_block sm nowhere nc b)
    (fun i => item_values (fun _ => False) i -> n_item sm nowhere as_text i = n_item sm nowhere nc i)).
  - intros b Hnl V. destruct b as [ls|d| |h|items|m|ls|p|c|t]; try reflexivity; [|now destruct (Hnl items)].
    destruct d as [|x d]; [reflexivity|]. destruct V as [[[] _] _].
  - intros items IH V. change (BList (map (n_loc nowhere (n_item sm nowhere as_text)) items) = BList (map (n_loc nowhere (n_item sm nowhere nc)) items)). f_equal.
    cbn [values] in V. rewrite all_in in V. rewrite Forall_forall in IH. apply map_ext_in. intros x J. unfold n_loc. now rewrite (IH x J (V x J)).
  - intros ty suf pos cs todo IH V. change (ListItem ty suf pos (map (n_loc nowhere (n_block sm nowhere as_text)) cs) todo = ListItem ty suf pos (map (n_loc nowhere (n_block sm nowhere nc)) cs) todo). f_equal.
    cbn [item_values] in V. rewrite all_in in V. rewrite Forall_forall in IH. apply map_ext_in. intros x J. unfold n_loc. now rewrite (IH x J (V x J)).
Qed.
Lemma content_full p : page_values (fun _ => False) p -> content_of sm p = full_content_of sm p.
Proof. unfold page_values. rewrite all_in. intro V. apply map_ext_in. intros x J. unfold n_loc. now rewrite (block_full _ (V x J)). Qed.
End NoLists.
(** Equality of URIs that is exact. *)
Definition exact_eqb (u v : uri) : bool := ProofEq4.uri_same u v.
Lemma exact_describes : describes exact_eqb (fun u => u).
Proof. exact ProofEq4.uri_same_eq. Qed.

Section Fine.
Variable up : str -> option uri.
Variable dp : str -> option date.
Variable lossy : str -> str.
Variable roman : bool -> Z -> str.
Lemma desc_fine_ok d : desc_fine d -> match d with Some y => ok_desc y | None => True end.
Proof. destruct d as [[t|x]|]; cbn; tauto. Qed.
Lemma data_fine_ok d : data_fine up lossy d -> ok_data d.
Proof. intros (_ & D & P). destruct d as [u d p]. cbn [ld_desc ld_props] in *. subst p. cbn [ok_data]. split; [exact (desc_fine_ok d D)|exact I]. Qed.
Lemma link_fine_ok l next : link_fine up dp lossy l next -> ok_link l.
Proof.
  destruct l as [d|i d|n d|t d|d|d]; cbn [link_fine]; intro H; try exact (data_fine_ok d (proj1 H)).
  - destruct H as (_ & _ & D & P & _). unfold ok_link. cbn [link_get_data]. destruct d as [u d p]. cbn [ld_desc ld_props] in *. subst p. split; [exact (desc_fine_ok d D)|exact I].
  - destruct H as (_ & _ & _ & _ & D & P). unfold ok_link. cbn [link_get_data]. destruct d as [u d p]. cbn [ld_desc ld_props] in *. subst d p. split; exact I.
Qed.
Lemma dc_fine_ok c : forall before next, dc_fine up dp lossy before c next -> ok_dc c.
Proof.
  induction c as [t|k cs IH|k|l] using dcontent_ind'; intros before next H; try exact I; [|exact (link_fine_ok l next H)].
  cbn [dc_fine] in H. destruct H as (_ & _ & H). cbn [ok_dc]. revert H. generalize (before ++ delim_of k). clear before next.
  induction IH as [|x cs Hx _ IHl]; intros b H; [exact I|]. destruct H as [H1 H2]. split; [exact (Hx _ _ H1)|exact (IHl _ H2)].
Qed.
Lemma items_fine_ok c : forall before, items_fine up dp lossy before c -> ok_cont c.
Proof.
  unfold ok_cont. induction c as [|x c IH]; intros b H; [exact I|]. destruct H as [H1 H2]. split; [|exact (IH _ H2)].
  destruct (l_val x) as [t|k cs|k|l|ts|t|t|m]; try exact I; [exact (dc_fine_ok (DCDeco k cs) b (cont_src lossy c) H1)|exact (link_fine_ok l (cont_src lossy c) H1)].
Qed.
Lemma cont_fine_ok c : cont_fine up dp lossy c -> ok_cont c.
Proof. intros (_ & H & _). exact (items_fine_ok c _ H). Qed.
Lemma counted_grid t : SpecElem.counts_ok t -> SpecElem.rectangular t -> 0 < t_row_cnt t -> 0 < t_col_cnt t -> counted t.
Proof.
  intros C F R0 C0. assert (Lt : forall k x, In (k, x) (t_cells t) -> cp_row k < t_row_cnt t /\ cp_col k < t_col_cnt t).
  { intros [r c] x J. apply C. now exists x. }
  destruct (F (t_row_cnt t - 1) (t_col_cnt t - 1)) as [x J]; [lia|lia|].
  split; intro n; split; intro H; try (intros k y K; destruct (Lt k y K); lia); specialize (H _ _ J); cbn [cp_row cp_col] in H; lia.
Qed.
Lemma block_fine_ok b : block_fine up dp lossy roman b -> ok_block b.
Proof.
  revert b. apply (block_ind' (fun b => block_fine up dp lossy roman b -> ok_block b) (fun i => item_fine up dp lossy roman i -> ok_item i)).
  - intros b Hnl H. destruct b as [ls|d| |h|items|m|ls|p|c|t]; try exact I.
    + destruct H as [_ H]. apply all_in. intros x J. rewrite Forall_forall in H. destruct (H x J) as (H1 & _ & _ & H2). split; [exact (cont_fine_ok _ H1)|].
      apply all_in. intros y K. rewrite Forall_forall in H2. exact (cont_fine_ok _ (H2 y K)).
    + exact (cont_fine_ok _ (proj2 H)).
    + now destruct (Hnl items).
    + destruct H as [_ H]. apply all_in. intros x J. rewrite Forall_forall in H. exact (cont_fine_ok _ (proj1 (H x J))).
    + exact (proj1 H).
    + destruct H as (M & C & F & R0 & C0 & H & _). split; [exact M|]. split; [now apply counted_grid|]. apply all_in. intros [[r c] x] J.
      specialize (H r c x J). cbn [snd]. destruct (l_val x) as [y| |]; try exact I. destruct H as (_ & H & _). exact (items_fine_ok y _ H).
  - intros items IH H. cbn [block_fine] in H. destruct H as (_ & _ & H). cbn [ok_block]. induction IH as [|x l Hx _ IHl]; [exact I|].
    destruct H as [H1 H2]. split; [exact (Hx H1)|exact (IHl H2)].
  - intros ty suf pos cs todo IH H. cbn [item_fine] in H. destruct H as (_ & _ & _ & H). cbn [ok_item]. induction IH as [|x l Hx _ IHl]; [exact I|].
    destruct H as [H1 H2]. split; [exact (Hx H1)|exact (IHl H2)].
Qed.
Lemma page_fine_ok p : page_fine up dp lossy roman p -> ok_page p.
Proof. intros [F _]. apply all_in. intros x J. rewrite Forall_forall in F. exact (block_fine_ok _ (F x J)). Qed.
End Fine.
