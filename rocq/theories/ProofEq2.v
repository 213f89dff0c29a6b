(** Comparisons of elements and their normal forms. *)
From Coq Require Import Permutation.
From Verif Require Import Base ModelSpan ModelAst ModelTable ModelElem ModelVimwiki ModelEq SpecEq ProofBase ProofTable ProofTree ProofEq.

Section Elements.
Variables (uri_eqb : uri -> uri -> bool) (cu : uri -> uri).
Hypothesis D : describes uri_eqb cu.

Lemma desc_iff a : forall b, ok_desc a -> ok_desc b -> desc_eqb uri_eqb a b = true <-> n_desc cu a = n_desc cu b
with data_iff a : forall b, ok_data a -> ok_data b -> link_data_eqb uri_eqb a b = true <-> n_data cu a = n_data cu b.
Proof.
  - destruct a as [s|x]; intros [t|y] Wa Wb.
    + cbn [desc_eqb n_desc]. rewrite str_eqb_eq. clear. inj.
    + off.
    + off.
    + change (link_data_eqb uri_eqb x y = true <-> DescTransclusion (n_data cu x) = DescTransclusion (n_data cu y)).
      rewrite (data_iff x y Wa Wb). clear. inj.
  - destruct a as [u d p]; intros [u' d' p'] [Wd Wp] [Wd' Wp'].
    assert (HP : opt_eqb (map_eqb str_eqb str_eqb) p p' = true <-> option_map n_map p = option_map n_map p').
    { destruct p, p'; cbn; off; [rewrite strmap_eqb_iff by assumption; clear; inj|clear; tauto]. }
    assert (HD : match d, d' with Some x, Some y => desc_eqb uri_eqb x y | None, None => true | _, _ => false end = true <->
                 match d with Some y => Some (n_desc cu y) | None => None end = match d' with Some y => Some (n_desc cu y) | None => None end).
    { destruct d as [x|], d' as [y|]; off; [|clear; tauto].
      rewrite (desc_iff x y Wd Wd'). clear. inj. }
    change (uri_eqb u u' && match d, d' with Some x, Some y => desc_eqb uri_eqb x y | None, None => true | _, _ => false end &&
              opt_eqb (map_eqb str_eqb str_eqb) p p' = true <->
            LinkData (cu u) (match d with Some y => Some (n_desc cu y) | None => None end) (option_map n_map p) =
            LinkData (cu u') (match d' with Some y => Some (n_desc cu y) | None => None end) (option_map n_map p')).
    rewrite !andb_true_iff, HP, HD, (D u u'). clear. inj.
Qed.
Lemma link_iff a b : ok_link a -> ok_link b -> link_eqb uri_eqb a b = true <-> n_link cu a = n_link cu b.
Proof.
  unfold ok_link. destruct a, b; cbn [link_get_data link_eqb n_link]; intros; off;
    rewrite ?andb_true_iff, data_iff, ?str_eqb_eq, ?date_eqb_eq, ?N.eqb_eq by assumption; inj.
Qed.

(** * Equality *)

Lemma loc_eqb_iff {A} (f : A -> A -> bool) g x y : (f (l_val x) (l_val y) = true <-> g (l_val x) = g (l_val y)) ->
  located_eqb f x y = true <-> n_loc nowhere g x = n_loc nowhere g y.
Proof. intro H. unfold located_eqb, n_loc, nowhere. rewrite H. inj. Qed.
Lemma loc_strict_iff {A} (f : A -> A -> bool) g x y : (f (l_val x) (l_val y) = true <-> g (l_val x) = g (l_val y)) ->
  located_strict f x y = true <-> n_loc (fun r => r) g x = n_loc (fun r => r) g y.
Proof. intro H. unfold located_strict, n_loc. rewrite andb_true_iff, region_eqb_eq, H. inj. Qed.

Lemma dc_iff a : forall b, ok_dc a -> ok_dc b -> dcontent_eqb uri_eqb a b = true <-> n_dc cu nowhere a = n_dc cu nowhere b.
Proof.
  induction a as [t|k cs IH|k|l] using dcontent_ind'; intros [t'|k' cs'|k'|l'] Wa Wb; cbn [dcontent_eqb n_dc]; off.
  - rewrite str_eqb_eq. inj.
  - rewrite andb_true_iff, deco_eqb_eq, (list_eqb_iff _ (n_loc nowhere (n_dc cu nowhere))); [inj|].
    cbn in Wa, Wb. rewrite all_in in Wa, Wb. rewrite Forall_forall in IH.
    intros x y Ix Iy. apply loc_eqb_iff. apply IH; auto.
  - rewrite keyword_eqb_eq. inj.
  - rewrite link_iff by assumption. inj.
Qed.
Lemma dc_strict_iff a : forall b, ok_dc a -> ok_dc b ->
  dcontent_strict uri_eqb a b = true <-> n_dc cu (fun r => r) a = n_dc cu (fun r => r) b.
Proof.
  induction a as [t|k cs IH|k|l] using dcontent_ind'; intros [t'|k' cs'|k'|l'] Wa Wb; cbn [dcontent_strict n_dc]; off.
  - rewrite str_eqb_eq. inj.
  - rewrite andb_true_iff, deco_eqb_eq, (list_eqb_iff _ (n_loc (fun r => r) (n_dc cu (fun r => r)))); [inj|].
    cbn in Wa, Wb. rewrite all_in in Wa, Wb. rewrite Forall_forall in IH.
    intros x y Ix Iy. apply loc_strict_iff. apply IH; auto.
  - rewrite keyword_eqb_eq. inj.
  - rewrite link_iff by assumption. inj.
Qed.
Lemma inline_iff a b : ok_inline a -> ok_inline b -> inline_eqb uri_eqb a b = true <-> n_inline cu nowhere a = n_inline cu nowhere b.
Proof.
  destruct a, b; intros Wa Wb; cbn [inline_eqb n_inline]; off;
    rewrite ?str_eqb_eq, ?keyword_eqb_eq, ?strs_eqb_eq, ?comment_eqb_eq; try inj.
  - rewrite andb_true_iff, deco_eqb_eq, (list_eqb_iff _ (n_loc nowhere (n_dc cu nowhere))); [inj|].
    cbn in Wa, Wb. rewrite all_in in Wa, Wb. intros x y Ix Iy. apply loc_eqb_iff. apply dc_iff; auto.
  - rewrite link_iff by assumption. inj.
Qed.
Lemma inline_strict_iff a b : ok_inline a -> ok_inline b ->
  inline_strict uri_eqb a b = true <-> n_inline cu (fun r => r) a = n_inline cu (fun r => r) b.
Proof.
  destruct a, b; intros Wa Wb; cbn [inline_strict n_inline]; off;
    rewrite ?str_eqb_eq, ?keyword_eqb_eq, ?strs_eqb_eq, ?comment_eqb_eq; try inj.
  - rewrite andb_true_iff, deco_eqb_eq, (list_eqb_iff _ (n_loc (fun r => r) (n_dc cu (fun r => r)))); [inj|].
    cbn in Wa, Wb. rewrite all_in in Wa, Wb. intros x y Ix Iy. apply loc_strict_iff. apply dc_strict_iff; auto.
  - rewrite link_iff by assumption. inj.
Qed.
Lemma cont_iff a b : ok_cont a -> ok_cont b -> container_eqb uri_eqb a b = true <-> n_cont cu nowhere a = n_cont cu nowhere b.
Proof.
  unfold ok_cont. rewrite !all_in. intros. apply list_eqb_iff. intros. apply loc_eqb_iff. apply inline_iff; auto.
Qed.
Lemma cont_strict_iff a b : ok_cont a -> ok_cont b ->
  container_strict uri_eqb a b = true <-> n_cont cu (fun r => r) a = n_cont cu (fun r => r) b.
Proof.
  unfold ok_cont. rewrite !all_in. intros. apply list_eqb_iff. intros. apply loc_strict_iff. apply inline_strict_iff; auto.
Qed.
Lemma value_iff a b : def_value_eqb a b = true <-> as_text a = as_text b.
Proof. unfold def_value_eqb, as_text. rewrite str_eqb_eq. inj. Qed.
Lemma td_iff a b : term_defs_eqb a b = true <-> n_td nowhere as_text a = n_td nowhere as_text b.
Proof.
  unfold term_defs_eqb, n_td. rewrite andb_true_iff.
  rewrite (loc_eqb_iff _ as_text), (loc_eqb_iff _ (map (n_loc nowhere as_text))); [inj| |apply value_iff].
  apply list_eqb_iff. intros. apply loc_eqb_iff, value_iff.
Qed.
Lemma td_strict_iff a b : ok_td a -> ok_td b ->
  term_defs_strict uri_eqb a b = true <->
  n_td (fun r => r) (n_cont cu (fun r => r)) a = n_td (fun r => r) (n_cont cu (fun r => r)) b.
Proof.
  intros [A1 A2] [B1 B2]. unfold term_defs_strict, n_td. rewrite andb_true_iff. rewrite all_in in A2, B2.
  rewrite (loc_strict_iff _ (n_cont cu (fun r => r))), (loc_strict_iff _ (map (n_loc (fun r => r) (n_cont cu (fun r => r)))));
    [inj| |now apply cont_strict_iff].
  apply list_eqb_iff. intros. apply loc_strict_iff, cont_strict_iff; auto.
Qed.
Lemma header_iff a b : ok_cont (h_content a) -> ok_cont (h_content b) ->
  header_eqb uri_eqb a b = true <-> n_header cu nowhere a = n_header cu nowhere b.
Proof.
  intros. unfold header_eqb, n_header. rewrite !andb_true_iff, cont_iff, Nat.eqb_eq, Bool.eqb_true_iff by assumption. inj.
Qed.
Lemma header_strict_iff a b : ok_cont (h_content a) -> ok_cont (h_content b) ->
  header_strict uri_eqb a b = true <-> n_header cu (fun r => r) a = n_header cu (fun r => r) b.
Proof.
  intros. unfold header_strict, n_header. rewrite !andb_true_iff, cont_strict_iff, Nat.eqb_eq, Bool.eqb_true_iff by assumption. inj.
Qed.
Lemma cell_iff a b : ok_cell a -> ok_cell b -> cell_eqb uri_eqb a b = true <-> n_cell cu nowhere a = n_cell cu nowhere b.
Proof.
  destruct a, b; cbn [cell_eqb n_cell ok_cell]; intros; off; rewrite ?span_eqb_eq, ?align_eqb_eq, ?cont_iff by assumption; inj.
Qed.
Lemma cell_strict_iff a b : ok_cell a -> ok_cell b ->
  cell_strict uri_eqb a b = true <-> n_cell cu (fun r => r) a = n_cell cu (fun r => r) b.
Proof.
  destruct a, b; cbn [cell_strict n_cell ok_cell]; intros; off; rewrite ?span_eqb_eq, ?align_eqb_eq, ?cont_strict_iff by assumption; inj.
Qed.

(** * Tables *)

Definition n_cells (cr : region -> region) (t : table) :=
  map (fun kv => (fst kv, n_loc cr (n_cell cu cr) (snd kv))) (t_cells t).
Lemma n_cells_keyed cr t : keyed (t_cells t) -> keyed (n_cells cr t).
Proof. unfold keyed, n_cells. now rewrite map_map. Qed.
Lemma cells_sorted cr a b : keyed (t_cells a) ->
  by_key pos_leb (n_cells cr a) = by_key pos_leb (n_cells cr b) <-> Permutation (n_cells cr a) (n_cells cr b).
Proof. intro. apply by_key_iff; [exact pos_leb_total|exact pos_leb_anti|exact pos_leb_trans|now apply n_cells_keyed]. Qed.
(** Tables with the same positions have the same counts. *)
Lemma same_keys cr a b : Permutation (n_cells cr a) (n_cells cr b) ->
  forall k, (exists x, In (k, x) (t_cells a)) <-> (exists x, In (k, x) (t_cells b)).
Proof.
  intros P k.
  assert (H : forall t, (exists x, In (k, x) (t_cells t)) <-> In k (map fst (n_cells cr t))).
  { intro t. unfold n_cells. rewrite map_map. cbn. rewrite in_map_iff. split.
    - intros [x I]. exists (k, x). auto.
    - intros ([k' x] & <- & I). eauto. }
  rewrite !H. split; apply Permutation_in; [now apply Permutation_map|now apply Permutation_map, Permutation_sym].
Qed.
Lemma same_counts cr a b : counted a -> counted b -> Permutation (n_cells cr a) (n_cells cr b) ->
  t_row_cnt a = t_row_cnt b /\ t_col_cnt a = t_col_cnt b.
Proof.
  intros [Ra Ca] [Rb Cb] P. pose proof (same_keys cr a b P) as S.
  assert (E : forall n m, (forall i, n <= i <-> m <= i) -> n = m).
  { intros n m H. pose proof (proj1 (H n) (le_n _)). pose proof (proj2 (H m) (le_n _)). lia. }
  split; apply E; intro i; [rewrite (Ra i), (Rb i)|rewrite (Ca i), (Cb i)];
    (split; intros H k x I; [destruct (proj2 (S k) (ex_intro _ x I)) as [y J]|destruct (proj1 (S k) (ex_intro _ x I)) as [y J]]; exact (H k y J)).
Qed.
Lemma table_iff a b : ok_table a -> ok_table b -> table_eqb uri_eqb a b = true <-> n_table cu nowhere a = n_table cu nowhere b.
Proof.
  intros (Ka & Ca & Oa) (Kb & Cb & Ob). rewrite all_in in Oa, Ob.
  assert (M : map_eqb cellpos_eqb (located_eqb (cell_eqb uri_eqb)) (t_cells a) (t_cells b) = true <->
              by_key pos_leb (n_cells nowhere a) = by_key pos_leb (n_cells nowhere b)).
  { rewrite cells_sorted by assumption. apply map_eqb_iff; auto; [intros; apply cellpos_eqb_eq|].
    intros x y Ix Iy. apply loc_eqb_iff. apply cell_iff; auto. }
  unfold table_eqb, n_table. fold (n_cells nowhere a) (n_cells nowhere b).
  rewrite !andb_true_iff, M, !Nat.eqb_eq, Bool.eqb_true_iff. inj.
Qed.
Lemma table_strict_iff a b : ok_table a -> ok_table b ->
  table_strict uri_eqb a b = true <-> n_table cu (fun r => r) a = n_table cu (fun r => r) b.
Proof.
  intros (Ka & Ca & Oa) (Kb & Cb & Ob). rewrite all_in in Oa, Ob.
  assert (M : map_eqb cellpos_eqb (located_strict (cell_strict uri_eqb)) (t_cells a) (t_cells b) = true <->
              by_key pos_leb (n_cells (fun r => r) a) = by_key pos_leb (n_cells (fun r => r) b)).
  { rewrite cells_sorted by assumption. apply map_eqb_iff; auto; [intros; apply cellpos_eqb_eq|].
    intros x y Ix Iy. apply loc_strict_iff. apply cell_strict_iff; auto. }
  unfold table_strict, n_table. fold (n_cells (fun r => r) a) (n_cells (fun r => r) b).
  rewrite !andb_true_iff, M, Bool.eqb_true_iff. split.
  - intros [E S]. pose proof (proj1 (cells_sorted _ a b Ka) S) as P.
    destruct (same_counts _ a b Ca Cb P) as [-> ->]. now rewrite E, S.
  - intro E. injection E. auto.
Qed.

(** * Blocks *)

Lemma conts_iff l m : all ok_cont l -> all ok_cont m ->
  list_eqb (container_eqb uri_eqb) l m = true <-> map (n_cont cu nowhere) l = map (n_cont cu nowhere) m.
Proof. rewrite !all_in. intros. apply list_eqb_iff. intros. apply cont_iff; auto. Qed.
Lemma conts_strict_iff l m : all ok_cont l -> all ok_cont m ->
  list_eqb (container_strict uri_eqb) l m = true <-> map (n_cont cu (fun r => r)) l = map (n_cont cu (fun r => r)) m.
Proof. rewrite !all_in. intros. apply list_eqb_iff. intros. apply cont_strict_iff; auto. Qed.

Local Notation nb := (n_block cu nowhere as_text).
Local Notation ni := (n_item cu nowhere as_text).
Lemma block_iff a : forall b, ok_block a -> ok_block b -> block_eqb uri_eqb a b = true <-> nb a = nb b.
Proof.
  apply (block_ind'
    (fun a => forall b, ok_block a -> ok_block b -> block_eqb uri_eqb a b = true <-> nb a = nb b)
    (fun a => forall b, ok_item a -> ok_item b -> item_eqb uri_eqb a b = true <-> ni a = ni b)); clear a.
  - intros a N b Wa Wb. destruct a; [..|]; try (now destruct (N _ eq_refl)); destruct b; cbn [block_eqb n_block]; off;
      cbn [ok_block] in Wa, Wb.
    + rewrite strs_eqb_eq. inj.
    + rewrite (list_eqb_iff _ (n_loc nowhere (n_td nowhere as_text))) by (intros; apply loc_eqb_iff, td_iff). inj.
    + tauto.
    + rewrite header_iff by assumption. inj.
    + rewrite math_eqb_eq. inj.
    + rewrite conts_iff by assumption. inj.
    + rewrite placeholder_eqb_eq. inj.
    + rewrite code_eqb_iff by assumption. inj.
    + rewrite table_iff by assumption. inj.
  - intros items IH b Wa Wb. destruct b as [| | | |items'| | | | |]; off. cbn [ok_block] in Wa, Wb.
    change (list_eqb (located_eqb (item_eqb uri_eqb)) items items' = true <-> BList (map (n_loc nowhere ni) items) = BList (map (n_loc nowhere ni) items')).
    rewrite all_in in Wa, Wb. rewrite Forall_forall in IH.
    rewrite (list_eqb_iff _ (n_loc nowhere ni)); [inj|]. intros. apply loc_eqb_iff. apply IH; auto.
  - intros ty suf pos cs todo IH [ty' suf' pos' cs' todo'] Wa Wb. cbn [ok_item] in Wa, Wb.
    change (item_ty_eqb ty ty' && suffix_eqb suf suf' && (pos =? pos') && list_eqb (located_eqb (block_eqb uri_eqb)) cs cs' &&
              opt_eqb todo_eqb todo todo' = true <->
            ListItem ty suf pos (map (n_loc nowhere nb) cs) todo = ListItem ty' suf' pos' (map (n_loc nowhere nb) cs') todo').
    rewrite all_in in Wa, Wb. rewrite Forall_forall in IH.
    rewrite !andb_true_iff, item_ty_eqb_eq, suffix_eqb_eq, Nat.eqb_eq, (opt_eqb_eq todo_eqb) by (intros; apply todo_eqb_eq).
    rewrite (list_eqb_iff _ (n_loc nowhere nb)); [inj|]. intros. apply loc_eqb_iff. apply IH; auto.
Qed.
Local Notation sb := (n_block cu (fun r => r) (n_cont cu (fun r => r))).
Local Notation si := (n_item cu (fun r => r) (n_cont cu (fun r => r))).
Lemma block_strict_iff a : forall b, ok_block a -> ok_block b -> block_strict uri_eqb a b = true <-> sb a = sb b.
Proof.
  apply (block_ind'
    (fun a => forall b, ok_block a -> ok_block b -> block_strict uri_eqb a b = true <-> sb a = sb b)
    (fun a => forall b, ok_item a -> ok_item b -> item_strict uri_eqb a b = true <-> si a = si b)); clear a.
  - intros a N b Wa Wb. destruct a; [..|]; try (now destruct (N _ eq_refl)); destruct b; cbn [block_strict n_block]; off;
      cbn [ok_block] in Wa, Wb.
    + rewrite strs_eqb_eq. inj.
    + rewrite all_in in Wa, Wb.
      rewrite (list_eqb_iff _ (n_loc (fun r => r) (n_td (fun r => r) (n_cont cu (fun r => r)))))
        by (intros; apply loc_strict_iff, td_strict_iff; auto). inj.
    + tauto.
    + rewrite header_strict_iff by assumption. inj.
    + rewrite math_eqb_eq. inj.
    + rewrite conts_strict_iff by assumption. inj.
    + rewrite placeholder_eqb_eq. inj.
    + rewrite code_eqb_iff by assumption. inj.
    + rewrite table_strict_iff by assumption. inj.
  - intros items IH b Wa Wb. destruct b as [| | | |items'| | | | |]; off. cbn [ok_block] in Wa, Wb.
    change (list_eqb (located_strict (item_strict uri_eqb)) items items' = true <-> BList (map (n_loc (fun r => r) si) items) = BList (map (n_loc (fun r => r) si) items')).
    rewrite all_in in Wa, Wb. rewrite Forall_forall in IH.
    rewrite (list_eqb_iff _ (n_loc (fun r => r) si)); [inj|]. intros. apply loc_strict_iff. apply IH; auto.
  - intros ty suf pos cs todo IH [ty' suf' pos' cs' todo'] Wa Wb. cbn [ok_item] in Wa, Wb.
    change (item_ty_eqb ty ty' && suffix_eqb suf suf' && (pos =? pos') && list_eqb (located_strict (block_strict uri_eqb)) cs cs' &&
              opt_eqb todo_eqb todo todo' = true <->
            ListItem ty suf pos (map (n_loc (fun r => r) sb) cs) todo = ListItem ty' suf' pos' (map (n_loc (fun r => r) sb) cs') todo').
    rewrite all_in in Wa, Wb. rewrite Forall_forall in IH.
    rewrite !andb_true_iff, item_ty_eqb_eq, suffix_eqb_eq, Nat.eqb_eq, (opt_eqb_eq todo_eqb) by (intros; apply todo_eqb_eq).
    rewrite (list_eqb_iff _ (n_loc (fun r => r) sb)); [inj|]. intros. apply loc_strict_iff. apply IH; auto.
Qed.
Lemma page_iff a b : ok_page a -> ok_page b -> page_eqb uri_eqb a b = true <-> content_of cu a = content_of cu b.
Proof.
  unfold ok_page. rewrite !all_in. intros. apply list_eqb_iff. intros. apply loc_eqb_iff. apply block_iff; auto.
Qed.
Lemma page_strict_iff a b : ok_page a -> ok_page b ->
  page_strict uri_eqb a b = true <-> located_content_of cu a = located_content_of cu b.
Proof.
  unfold ok_page. rewrite !all_in. intros. apply list_eqb_iff. intros. apply loc_strict_iff. apply block_strict_iff; auto.
Qed.
End Elements.
