(** What is printed depends on what a page says, not on where its parts were
    found nor on the order in which maps are listed. *)
From Verif Require Import Base ModelSpan ModelAst ModelTable ModelLink ModelElem ModelVimwiki SpecEq SpecElem ProofBase ProofTree.
From Verif Require ProofEq ProofElem ProofRound15.
From Coq Require Import Permutation.
Local Open Scope nat_scope.

Local Notation same_uri := (fun u : uri => u).
Local Notation nc := (n_cont same_uri nowhere).
Local Notation nb := (n_block same_uri nowhere nc).
Local Notation ni := (n_item same_uri nowhere nc).

(** * Maps *)

Section Sorted.
Context {K V : Type}.
Variable leb : K -> K -> bool.
Hypothesis total : forall a b, leb a b = true \/ leb b a = true.
Hypothesis trans : forall a b c, leb a b = true -> leb b c = true -> leb a c = true.
Fixpoint ascending (l : list (K * V)) : Prop :=
  match l with
  | [] => True
  | p :: l' => match l' with q :: _ => leb (fst p) (fst q) = true | [] => True end /\ ascending l'
  end.
Lemma put_ascending p l : ascending l -> ascending (put leb p l).
Proof.
  induction l as [|q l IH]; intro A; [now split|]. cbn [put]. destruct (leb (fst p) (fst q)) eqn:E; [now split|].
  destruct A as [A1 A2]. specialize (IH A2). split; [|exact IH].
  destruct l as [|r l]; cbn [put].
  - destruct (total (fst p) (fst q)); [congruence|assumption].
  - destruct (leb (fst p) (fst r)); [|exact A1]. destruct (total (fst p) (fst q)); [congruence|assumption].
Qed.
Lemma by_key_ascending (l : list (K * V)) : ascending (by_key leb l).
Proof. induction l as [|p l IH]; [exact I|]. now apply put_ascending. Qed.
Lemma ascending_by_key l : ascending l -> by_key leb l = l.
Proof.
  induction l as [|p l IH]; intro A; [reflexivity|]. destruct A as [A1 A2]. unfold by_key in *. cbn [fold_right]. rewrite (IH A2).
  destruct l as [|q l]; [reflexivity|]. cbn [put]. now rewrite A1.
Qed.
Lemma by_key_twice (l : list (K * V)) : by_key leb (by_key leb l) = by_key leb l.
Proof. apply ascending_by_key, by_key_ascending. Qed.
End Sorted.
Lemma sort_by_key l : sort_pairs l = by_key str_leb l.
Proof.
  unfold sort_pairs, by_key. induction l as [|p l IH]; [reflexivity|]. cbn [fold_right]. rewrite IH. generalize (fold_right (put str_leb) [] l). intro m.
  induction m as [|q m IHm]; [reflexivity|]. cbn [insert_pair put]. now rewrite IHm.
Qed.
Lemma sort_n_map l : sort_pairs (n_map l) = sort_pairs l.
Proof. rewrite !sort_by_key. apply by_key_twice. exact ProofEq.str_leb_total. Qed.

(** * Tables *)

Section Cells.
Variable h : located cell -> located cell.
Hypothesis h_content : forall c, is_content (l_val (h c)) = is_content (l_val c).
Hypothesis h_span : forall c, get_span (l_val (h c)) = get_span (l_val c).
Hypothesis h_align : forall c, get_align (l_val (h c)) = get_align (l_val c).
(** The same positions, the cells changed by [h]. *)
Definition like_table (t' t : table) : Prop :=
  (forall r c, get_cell t' r c = option_map h (get_cell t r c)) /\ length (t_cells t') = length (t_cells t) /\
  t_row_cnt t' = t_row_cnt t /\ t_col_cnt t' = t_col_cnt t /\ t_centered t' = t_centered t.
Variables t' t : table.
Hypothesis L : like_table t' t.
Lemma walk_like g' g : (forall i, g' i = option_map h (g i)) -> forall n i, walk n g' i = map h (walk n g i).
Proof. intro E. induction n as [|n IH]; intro i; [reflexivity|]. cbn [walk]. rewrite E. destruct (g i); [|reflexivity]. cbn [option_map map]. now rewrite IH. Qed.
Lemma row_like r : row t' r = map h (row t r).
Proof. destruct L as (G & N & _). unfold row. rewrite N. apply walk_like. intro i. apply G. Qed.
Lemma column_like c : column t' c = map h (column t c).
Proof. destruct L as (G & N & _). unfold column. rewrite N. apply walk_like. intro i. apply G. Qed.
Lemma cells_like : cells t' = map h (cells t).
Proof.
  destruct L as (G & _ & R & C & _). unfold cells. rewrite R, C. generalize (S (t_row_cnt t * t_col_cnt t)) (0, 0).
  induction n as [|n IH]; intro p; [reflexivity|]. cbn [cells_run]. destruct p as [r c]. unfold cells_step. rewrite G, R, C.
  destruct (get_cell t r c); [|reflexivity]. cbn [option_map map]. now rewrite IH.
Qed.
Lemma is_align_get c : is_align c = match get_align c with Some _ => true | None => false end.
Proof. now destruct c. Qed.
Lemma divider_like r : is_divider_row t' r = is_divider_row t r.
Proof. destruct L as (G & _). unfold is_divider_row. rewrite G. destruct (get_cell t r 0); [|reflexivity]. cbn [option_map]. now rewrite !is_align_get, h_align. Qed.
Lemma divider_index_like : get_divider_row_index t' = get_divider_row_index t.
Proof.
  destruct L as (_ & _ & R & _). unfold get_divider_row_index, rows. rewrite R. generalize (seq 0 (t_row_cnt t)).
  induction l as [|r l IH]; [reflexivity|]. cbn [find]. now rewrite divider_like, IH.
Qed.
Lemma header_rows_like : header_rows t' = header_rows t.
Proof. unfold header_rows. rewrite divider_index_like. apply filter_ext. intro r. now rewrite divider_like. Qed.
Lemma body_rows_like : body_rows t' = body_rows t.
Proof. destruct L as (_ & _ & R & _). unfold body_rows. rewrite divider_index_like, R. apply filter_ext. intro r. now rewrite divider_like. Qed.
Lemma alignment_like c : get_column_alignment t' c = get_column_alignment t c.
Proof.
  unfold get_column_alignment. rewrite column_like. assert (E : find_align (map h (column t c)) = find_align (column t c)); [|now rewrite E].
  induction (column t c) as [|x l IH]; [reflexivity|]. cbn [map find_align]. now rewrite h_align, IH.
Qed.
Lemma span_like k l : span_of_iter k (map h l) = span_of_iter k l.
Proof.
  destruct l as [|c l]; [reflexivity|]. cbn [map span_of_iter]. rewrite h_content. destruct (is_content (l_val c)); [|reflexivity]. f_equal.
  induction l as [|x l IH]; [reflexivity|]. cbn [map count_while]. unfold span_is at 1 3. rewrite h_span, IH. reflexivity.
Qed.
Lemma rowspan_like r c : get_cell_rowspan t' r c = get_cell_rowspan t r c.
Proof. unfold get_cell_rowspan. rewrite column_like, skipn_map. apply span_like. Qed.
Lemma colspan_like r c : get_cell_colspan t' r c = get_cell_colspan t r c.
Proof. unfold get_cell_colspan. rewrite row_like, skipn_map. apply span_like. Qed.
Lemma row_content_like r : row_has_content t' r = row_has_content t r.
Proof. unfold row_has_content. rewrite row_like. induction (row t r) as [|x l IH]; [reflexivity|]. cbn [map existsb]. now rewrite h_content, IH. Qed.
Lemma cells_pos_like : cells_pos t' = map (fun kv => (fst kv, h (snd kv))) (cells_pos t).
Proof.
  destruct L as (G & _ & R & C & _). unfold cells_pos. rewrite R, C. generalize (S (t_row_cnt t * t_col_cnt t)) (0, 0).
  induction n as [|n IH]; intro p; [reflexivity|]. cbn [cells_pos_run]. destruct p as [r c]. unfold cells_step. rewrite G, R, C.
  destruct (get_cell t r c); [|reflexivity]. cbn [option_map map]. now rewrite IH.
Qed.
End Cells.

Section NormTable.
Variables (cu : uri -> uri) (cr : region -> region).
Local Notation h := (n_loc cr (n_cell cu cr)).
Lemma n_cell_content c : is_content (l_val (h c)) = is_content (l_val c).
Proof. destruct c as [[] ?]; reflexivity. Qed.
Lemma n_cell_span c : get_span (l_val (h c)) = get_span (l_val c).
Proof. destruct c as [[] ?]; reflexivity. Qed.
Lemma n_cell_align c : get_align (l_val (h c)) = get_align (l_val c).
Proof. destruct c as [[] ?]; reflexivity. Qed.
Lemma n_table_like t : keyed (t_cells t) -> like_table h (n_table cu cr t) t.
Proof.
  intro M. set (f := fun kv : cellpos * located cell => (fst kv, h (snd kv))).
  pose proof (ProofEq.by_key_perm pos_leb (map f (t_cells t))) as P.
  assert (Mf : map fst (map f (t_cells t)) = map fst (t_cells t)) by (rewrite map_map; reflexivity).
  assert (M' : is_map (n_table cu cr t)).
  { unfold is_map. cbn [n_table t_cells]. eapply Permutation_NoDup; [apply Permutation_map, Permutation_sym, P|]. rewrite Mf. exact M. }
  split; [|split; [|auto]].
  - intros r c. destruct (get_cell t r c) as [x|] eqn:E; cbn [option_map].
    + apply (ProofElem.get_cell_at t r c x M) in E. apply (ProofElem.get_cell_at _ r c _ M'). unfold at_ in *. cbn [n_table t_cells].
      eapply Permutation_in; [apply Permutation_sym, P|]. apply in_map_iff. exists (CellPos r c, x). auto.
    + destruct (get_cell (n_table cu cr t) r c) as [y|] eqn:E2; [|reflexivity]. apply (ProofElem.get_cell_at _ r c y M') in E2. unfold at_ in E2. cbn [n_table t_cells] in E2.
      eapply Permutation_in in E2; [|exact P]. apply in_map_iff in E2 as ([k x] & E3 & I). injection E3 as -> _.
      apply (ProofElem.get_cell_at t r c x M) in I. congruence.
  - cbn [n_table t_cells]. etransitivity; [exact (Permutation_length P)|]. apply map_length.
Qed.
End NormTable.

(** * Printing *)

Definition veq (f g : vm) : Prop := forall st, f st = g st.
Lemma veq_refl f : veq f f. Proof. now intro. Qed.
Lemma veq_seq f g f' g' : veq f f' -> veq g g' -> veq (vseq f g) (vseq f' g').
Proof. intros E1 E2 st. unfold vseq. rewrite E1. destruct (f' st); auto. Qed.
Lemma veq_each {A} (f g : A -> vm) l : Forall (fun x => veq (f x) (g x)) l -> veq (veach f l) (veach g l).
Proof. induction 1 as [|x l H _ IH]; [apply veq_refl|]. cbn [veach]. now apply veq_seq. Qed.
Lemma veach_map {A B} (f : B -> vm) (g : A -> B) l : veach f (map g l) = veach (fun x => f (g x)) l.
Proof. induction l as [|x l IH]; [reflexivity|]. cbn [map veach]. now rewrite IH. Qed.
Lemma veq_each_map {A B} (f : B -> vm) (g : A -> B) (k : A -> vm) l : Forall (fun x => veq (f (g x)) (k x)) l -> veq (veach f (map g l)) (veach k l).
Proof. intro H. rewrite veach_map. now apply veq_each. Qed.
Lemma veq_trim b f g : veq f g -> veq (trim_if b f) (trim_if b g).
Proof. intro E. destruct b; [|exact E]. apply veq_seq; [|apply veq_refl]. intro st. unfold skip_whitespace. now rewrite E. Qed.
Lemma veq_indent f g : veq f g -> veq (and_indent f) (and_indent g).
Proof. intros E st. unfold and_indent. now rewrite E. Qed.
Lemma Forall_all {A} (P : A -> Prop) l : (forall x, P x) -> Forall P l.
Proof. intro H. apply Forall_forall. auto. Qed.

Section Print.
Variable cfg : vw_config.
Variable roman : bool -> Z -> str.
Variable lossy : str -> str.
Ltac step := apply veq_seq; [try apply veq_refl|].
Lemma desc_same d : veq (desc_vw lossy (n_desc same_uri d)) (desc_vw lossy d)
with transclusion_same d : veq (transclusion_vw lossy (n_data same_uri d)) (transclusion_vw lossy d).
Proof.
  - destruct d as [t|x]; [apply veq_refl|]. cbn [n_desc desc_vw]. step. apply transclusion_same.
  - destruct d as [u d p]. cbn [n_data transclusion_vw]. step. step. step; [destruct d as [d|]; [apply desc_same|apply veq_refl]|].
    step; [|apply veq_refl]. destruct p as [p|]; cbn [option_map]; [|apply veq_refl]. rewrite sort_n_map. destruct d; apply veq_refl.
Qed.
Lemma ld_uri_same d : ld_uri (n_data same_uri d) = ld_uri d.
Proof. now destruct d. Qed.
Lemma opt_desc_same d : veq (opt_desc_vw lossy (ld_desc (n_data same_uri d))) (opt_desc_vw lossy (ld_desc d)).
Proof. destruct d as [u [d|] p]; [apply desc_same|apply veq_refl]. Qed.
Lemma link_same l : veq (link_vw lossy (n_link same_uri l)) (link_vw lossy l).
Proof.
  destruct l as [d|i d|n d|t d|d|d]; cbn [n_link link_vw]; unfold decoded_uri, to_anchor; rewrite ?ld_uri_same; try (apply transclusion_same); try apply veq_refl.
  - do 2 step. step; [apply opt_desc_same|apply veq_refl].
  - do 5 step. step; [apply opt_desc_same|apply veq_refl].
  - do 5 step. step; [apply opt_desc_same|apply veq_refl].
  - do 3 step. step; [apply opt_desc_same|apply veq_refl].
Qed.
Lemma dc_same c : veq (dcontent_vw lossy (n_dc same_uri nowhere c)) (dcontent_vw lossy c).
Proof.
  induction c as [t|k cs IH|k|l] using dcontent_ind'; try apply veq_refl; [|apply link_same].
  cbn [n_dc dcontent_vw]. step. step; [|apply veq_refl]. apply veq_each_map. exact IH.
Qed.
Lemma inline_same i : veq (inline_vw cfg lossy (n_inline same_uri nowhere i)) (inline_vw cfg lossy i).
Proof. destruct i as [t|k cs|k|l|ts|t|t|m]; try apply veq_refl; [exact (dc_same (DCDeco k cs))|apply link_same]. Qed.
Lemma cont_same c : veq (container_vw cfg lossy (nc c)) (container_vw cfg lossy c).
Proof. apply veq_each_map, Forall_all. intro x. apply inline_same. Qed.
Lemma defs_same ds : forall b, veq (defs_vw cfg lossy b (map (n_loc nowhere nc) ds)) (defs_vw cfg lossy b ds).
Proof.
  induction ds as [|d ds IH]; intro b; [apply veq_refl|]. cbn [map defs_vw]. step. step; [apply veq_trim, cont_same|]. step. apply IH.
Qed.
Lemma is_nil_map {A B} (f : A -> B) l : match map f l with [] => true | _ => false end = match l with [] => true | _ => false end.
Proof. now destruct l. Qed.
Lemma deflist_same d : veq (deflist_vw cfg lossy (map (n_loc nowhere (n_td nowhere nc)) d)) (deflist_vw cfg lossy d).
Proof.
  apply veq_each_map, Forall_all. intros [[t ds] r]. cbn [n_loc n_td l_val td_term td_defs]. rewrite is_nil_map.
  step. step; [apply veq_trim, cont_same|]. step. step. apply defs_same.
Qed.
Lemma cell_text_same st c : cell_text cfg lossy st (n_cell same_uri nowhere c) = cell_text cfg lossy st c.
Proof. destruct c as [x| |]; try reflexivity. cbn [n_cell cell_text]. now rewrite (cont_same x). Qed.
Lemma fixed_same st l : fixed_cells cfg lossy st (map (fun kv => (fst kv, n_loc nowhere (n_cell same_uri nowhere) (snd kv))) l) = fixed_cells cfg lossy st l.
Proof.
  induction l as [|[p c] l IH]; [reflexivity|]. cbn [map fixed_cells fst snd n_loc l_val]. now rewrite IH, cell_text_same.
Qed.
Lemma table_same t : ok_table t -> veq (table_vw cfg lossy (n_table same_uri nowhere t)) (table_vw cfg lossy t).
Proof.
  intros [M _] st. set (h := n_loc nowhere (n_cell same_uri nowhere)). pose proof (n_table_like same_uri nowhere t M) as L. fold h in L.
  unfold table_vw. rewrite (cells_pos_like h _ _ L). fold h. unfold h at 1. rewrite fixed_same. destruct (fixed_cells cfg lossy st (cells_pos t)) as [m|]; [|reflexivity].
  pose proof (column_like h _ _ L) as Lc. destruct L as (G & _ & R & C & E). rewrite R, C, E. revert st. apply veq_each, Forall_all. intro r. step. step. step. step; [|apply veq_refl].
  apply veq_each, Forall_all. intro c. unfold cell_vw.
  assert (Ec : column_size (n_table same_uri nowhere t) m c = column_size t m c).
  { unfold column_size. rewrite Lc, map_map. destruct (filter _ m) as [|e l]; [reflexivity|]. f_equal. f_equal. apply map_ext. intros [[] ?]; reflexivity. }
  rewrite Ec, G. apply veq_seq; [|apply veq_refl]. destruct (fixed_get (CellPos r c) m); [apply veq_refl|]. destruct (get_cell t r c) as [[[] ?]|]; apply veq_refl.
Qed.
Theorem block_same b : ok_block b -> veq (block_vw cfg roman lossy (nb b)) (block_vw cfg roman lossy b).
Proof.
  revert b. apply (block_ind' (fun b => ok_block b -> veq (block_vw cfg roman lossy (nb b)) (block_vw cfg roman lossy b))
    (fun i => ok_item i -> veq (item_vw cfg roman lossy (ni i)) (item_vw cfg roman lossy i))).
  - intros b Hnl O. destruct b as [ls|d| |h|items|m|ls|p|c|t]; try apply veq_refl.
    + apply deflist_same.
    + cbn [n_block n_header block_vw]. unfold header_vw. cbn [h_content h_level h_centered]. do 3 step. step; [apply veq_trim, cont_same|apply veq_refl].
    + now destruct (Hnl items).
    + cbn [n_block block_vw]. apply veq_each_map, Forall_all. intro l. step. step; [apply veq_trim, cont_same|apply veq_refl].
    + cbn [n_block block_vw]. unfold code_vw. cbn [cb_lang cb_meta cb_lines]. rewrite sort_n_map. apply veq_refl.
    + exact (table_same t O).
  - intros items IH O. cbn [ok_block] in O.
    change (veq (veach (fun x => item_vw cfg roman lossy (l_val x)) (map (n_loc nowhere ni) items)) (veach (fun x => item_vw cfg roman lossy (l_val x)) items)).
    apply veq_each_map. apply Forall_forall. intros x I. rewrite Forall_forall in IH. rewrite ProofEq.all_in in O. exact (IH x I (O x I)).
  - intros ty suf pos cs todo IH O. cbn [ok_item] in O. rewrite ProofEq.all_in in O. rewrite Forall_forall in IH.
    assert (K : forall x, In x cs -> veq (and_indent (block_vw cfg roman lossy (nb (l_val x)))) (and_indent (block_vw cfg roman lossy (l_val x)))).
    { intros x I. apply veq_indent. exact (IH x I (O x I)). }
    change (veq (item_vw cfg roman lossy (ListItem ty suf pos (map (n_loc nowhere nb) cs) todo)) (item_vw cfg roman lossy (ListItem ty suf pos cs todo))).
    destruct cs as [|c cs]; [apply veq_refl|]. cbn [map item_vw]. step. step; [apply K; now left|].
    apply veq_each_map. apply Forall_forall. intros x I. apply K. now right.
Qed.
Theorem page_same p : ok_page p -> veq (page_vw cfg roman lossy (full_content_of same_uri p)) (page_vw cfg roman lossy p).
Proof.
  unfold ok_page, full_content_of, n_page. induction p as [|b p IH]; intro O; [apply veq_refl|]. cbn [all] in O. destruct O as [O1 O2].
  cbn [map page_vw]. step; [apply block_same, O1|]. step; [destruct p; apply veq_refl|]. now apply IH.
Qed.
Theorem printed_same p q : ok_page p -> ok_page q -> full_content_of same_uri p = full_content_of same_uri q ->
  page_to_vimwiki cfg roman lossy p = page_to_vimwiki cfg roman lossy q.
Proof. intros P Q E. unfold page_to_vimwiki, run_vw. now rewrite <- (page_same p P), <- (page_same q Q), E. Qed.
End Print.
