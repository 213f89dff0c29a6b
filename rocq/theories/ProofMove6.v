(** What a page says does not depend on where it stands. *)
From Verif Require Import Base ModelSpan ModelComb ModelAst ModelTable ModelLink ModelInline ModelBlock ModelElem ModelVimwiki
  SpecDoc SpecBlock SpecEq SpecMove ProofBase ProofTree ProofEq ProofYield ProofSame ProofFine.
Local Open Scope nat_scope.

Section Placed.
Variable cr : region -> region.
Local Notation sm := (fun u : uri => u).
Local Notation pc := (n_cont sm cr).
Local Notation pb := (n_block sm cr pc).
Local Notation pi := (n_item sm cr pc).
Local Notation nc := (n_cont sm nowhere).
Local Notation nb := (n_block sm nowhere nc).
Local Notation ni := (n_item sm nowhere nc).
Lemma dc_placed c : n_dc sm nowhere (n_dc sm cr c) = n_dc sm nowhere c.
Proof.
  induction c as [t|k cs IH|k|l] using dcontent_ind'; try reflexivity; cbn [n_dc]; f_equal; [|apply link_both].
  apply map_same. eapply Forall_impl; [|exact IH]. intros x E. unfold n_loc. cbn [l_val l_reg]. now rewrite E.
Qed.
Lemma cont_placed c : nc (pc c) = nc c.
Proof.
  apply map_same_all. intros [[t|k cs|k|l|ts|t|t|m] r]; try reflexivity; unfold n_loc; cbn [l_val l_reg n_inline]; f_equal; f_equal; [|apply link_both].
  apply map_same_all. intro x. unfold n_loc. cbn [l_val l_reg]. now rewrite dc_placed.
Qed.
Lemma table_placed t : n_table sm nowhere (n_table sm cr t) = n_table sm nowhere t.
Proof.
  unfold n_table. cbn [t_cells t_row_cnt t_col_cnt t_centered]. f_equal.
  rewrite (by_key_map pos_leb (n_loc nowhere (n_cell sm nowhere))), by_key_twice by exact pos_leb_total. f_equal.
  apply map_same_all. intros [k [c r]]. unfold n_loc. cbn [fst snd l_val l_reg]. f_equal. f_equal. destruct c; try reflexivity. cbn [n_cell]. now rewrite cont_placed.
Qed.
Lemma block_placed b : nb (pb b) = nb b.
Proof.
  revert b. apply (block_ind' (fun b => nb (pb b) = nb b) (fun i => ni (pi i) = ni i)).
  - intros b Hnl. destruct b as [ls|d| |h|items|m|ls|p|c|t]; try reflexivity.
    + cbn [n_block]. f_equal. apply map_same_all. intros [[t ds] r]. unfold n_td, n_loc. cbn [l_val l_reg td_term td_defs]. rewrite cont_placed. do 3 f_equal.
      apply map_same_all. intro x. unfold n_loc. cbn [l_val l_reg]. now rewrite cont_placed.
    + cbn [n_block]. unfold n_header. cbn [h_content h_level h_centered]. now rewrite cont_placed.
    + now destruct (Hnl items).
    + cbn [n_block]. f_equal. apply map_same_all, cont_placed.
    + cbn [n_block cb_lang cb_meta cb_lines]. now rewrite n_map_twice.
    + cbn [n_block]. now rewrite table_placed.
  - intros items IH. change (BList (map (n_loc nowhere ni) (map (n_loc cr pi) items)) = BList (map (n_loc nowhere ni) items)). f_equal.
    apply map_same. eapply Forall_impl; [|exact IH]. intros x E. unfold n_loc. cbn [l_val l_reg]. now rewrite E.
  - intros ty suf pos cs todo IH. change (ListItem ty suf pos (map (n_loc nowhere nb) (map (n_loc cr pb) cs)) todo = ListItem ty suf pos (map (n_loc nowhere nb) cs) todo). f_equal.
    apply map_same. eapply Forall_impl; [|exact IH]. intros x E. unfold n_loc. cbn [l_val l_reg]. now rewrite E.
Qed.
Lemma page_placed p : full_content_of sm (n_page sm cr pc p) = full_content_of sm p.
Proof. apply map_same_all. intro x. unfold n_loc. cbn [l_val l_reg]. now rewrite block_placed. Qed.
End Placed.

Lemma moved_says n p q : moved_content n p = located_content_of (fun u => u) q -> full_content_of (fun u => u) p = full_content_of (fun u => u) q.
Proof. intro H. rewrite <- (page_placed (shift n) p), <- (page_placed (fun r => r) q). exact (f_equal _ H). Qed.
