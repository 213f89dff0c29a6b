(** The HTML of a page depends on what it says and on the order in which its
    maps are listed. *)
From Verif Require Import Base ModelSpan ModelAst ModelTable ModelLink ModelBlock ModelElem ModelPath ModelHtml SpecEq SpecElem ProofBase ProofTree ProofSame.
From Verif Require ProofEq ProofElem ProofRound15.
Local Open Scope nat_scope.

Local Notation same_uri := (fun u : uri => u).
Local Notation nc := (n_cont same_uri nowhere).
Local Notation nb := (n_block same_uri nowhere nc).
Local Notation ni := (n_item same_uri nowhere nc).
(** Listed in the order of the keys; a map with at most one entry is. *)
Definition listed (m : list (str * str)) : Prop := n_map m = m.
Definition single (m : list (str * str)) : Prop := length m <= 1.
Lemma single_listed m : single m -> listed m.
Proof. unfold single, listed. destruct m as [|p [|q m]]; cbn [length]; intros; [reflexivity|reflexivity|lia]. Qed.

Section Weaken.
Variables P Q : list (str * str) -> Prop.
Hypothesis W : forall m, P m -> Q m.
Lemma desc_maps_weaken d : desc_maps P d -> desc_maps Q d
with data_maps_weaken d : data_maps P d -> data_maps Q d.
Proof.
  - destruct d as [t|x]; [auto|]. exact (data_maps_weaken x).
  - destruct d as [u d p]. intros [H1 H2]. split; [destruct d as [d|]; [exact (desc_maps_weaken d H1)|exact I]|]. destruct p; [apply W, H2|exact I].
Qed.
Lemma dc_maps_weaken c : dc_maps P c -> dc_maps Q c.
Proof.
  induction c as [t|k cs IH|k|l] using dcontent_ind'; intro H; try exact I; [|exact (data_maps_weaken _ H)].
  cbn [dc_maps] in *. rewrite ProofEq.all_in in *. rewrite Forall_forall in IH. auto.
Qed.
Lemma cont_maps_weaken c : cont_maps P c -> cont_maps Q c.
Proof.
  unfold cont_maps. rewrite !ProofEq.all_in. intros H x J. specialize (H x J). destruct (l_val x) as [t|k cs|k|l|ts|t|t|m]; try exact I;
    [exact (dc_maps_weaken (DCDeco k cs) H)|exact (data_maps_weaken _ H)].
Qed.
Lemma block_maps_weaken b : block_maps P b -> block_maps Q b.
Proof.
  revert b. apply (block_ind' (fun b => block_maps P b -> block_maps Q b) (fun i => item_maps P i -> item_maps Q i)).
  - intros b Hnl. destruct b as [ls|d| |h|items|m|ls|p|c|t]; cbn [block_maps]; rewrite ?ProofEq.all_in; auto.
    + intros H x J. destruct (H x J) as [H1 H2]. split; [exact (cont_maps_weaken _ H1)|]. rewrite ProofEq.all_in in *. intros y K. exact (cont_maps_weaken _ (H2 y K)).
    + apply cont_maps_weaken.
    + now destruct (Hnl items).
    + intros H x J. exact (cont_maps_weaken _ (H x J)).
    + intros H x J. specialize (H x J). destruct (l_val (snd x)); try exact I. exact (cont_maps_weaken _ H).
  - intros items IH. cbn [block_maps]. rewrite !ProofEq.all_in. rewrite Forall_forall in IH. intros H x J. exact (IH x J (H x J)).
  - intros ty suf pos cs todo IH. cbn [item_maps]. rewrite !ProofEq.all_in. rewrite Forall_forall in IH. intros H x J. exact (IH x J (H x J)).
Qed.
Lemma page_maps_weaken p : page_maps P p -> page_maps Q p.
Proof. unfold page_maps. rewrite !ProofEq.all_in. intros H x J. exact (block_maps_weaken _ (H x J)). Qed.
End Weaken.

Lemma desc_listed d : desc_maps listed d -> n_desc same_uri d = d
with data_listed d : data_maps listed d -> n_data same_uri d = d.
Proof.
  - destruct d as [t|x]; intro H; [reflexivity|]. cbn [n_desc]. f_equal. exact (data_listed x H).
  - destruct d as [u d p]. intros [H1 H2]. cbn [n_data]. f_equal.
    + destruct d as [d|]; [|reflexivity]. f_equal. exact (desc_listed d H1).
    + destruct p as [p|]; [|reflexivity]. cbn [option_map]. f_equal. exact H2.
Qed.
Lemma link_listed l : link_maps listed l -> n_link same_uri l = l.
Proof. destruct l; cbn [n_link]; intro H; f_equal; now apply data_listed. Qed.

Definition heq (f g : hm) : Prop := forall st, f st = g st.
Lemma heq_refl f : heq f f. Proof. now intro. Qed.
Lemma heq_seq f g f' g' : heq f f' -> heq g g' -> heq (hseq f g) (hseq f' g').
Proof. intros E1 E2 st. unfold hseq. rewrite E1. destruct (f' st) as [[st1 o]| | |]; auto. now rewrite E2. Qed.
Lemma heq_each {A} (f g : A -> hm) l : (forall x, In x l -> heq (f x) (g x)) -> heq (each f l) (each g l).
Proof. induction l as [|x l IH]; intro H; [apply heq_refl|]. cbn [each]. apply heq_seq; [apply H; now left|]. apply IH. intros. apply H. now right. Qed.
Lemma each_map {A B} (f : B -> hm) (g : A -> B) l : each f (map g l) = each (fun x => f (g x)) l.
Proof. induction l as [|x l IH]; [reflexivity|]. cbn [map each]. now rewrite IH. Qed.
Lemma heq_each_map {A B} (f : B -> hm) (g : A -> B) (k : A -> hm) l : (forall x, In x l -> heq (f (g x)) (k x)) -> heq (each f (map g l)) (each k l).
Proof. intro H. rewrite each_map. now apply heq_each. Qed.
Lemma heq_unique id f g : (forall u, heq (f u) (g u)) -> heq (with_unique id f) (with_unique id g).
Proof. intros H st. unfold with_unique. destruct (ensure_unique _ _) as [[m u]|]; [apply H|reflexivity]. Qed.
Lemma heq_headers f g : (forall m, heq (f m) (g m)) -> heq (with_headers f) (with_headers g).
Proof. intros H st. apply H. Qed.
Lemma enumerate_map {A B} (f : A -> B) l : enumerate (map f l) = map (fun x => (fst x, f (snd x))) (enumerate l).
Proof.
  unfold enumerate. rewrite map_length. generalize 0. induction l as [|x l IH]; intro n; [reflexivity|]. cbn [length seq map combine]. now rewrite IH.
Qed.

Section Html.
Variable lower : str -> str.
Variable lossy : str -> str.
Variable highlight : option str -> list str -> option str.
Variable rel_parse : str -> option uri.
Variable frag_parse : str -> option str.
Variable cfg : html_config.
Ltac step := apply heq_seq; [try apply heq_refl|].
Local Notation dc_h := (dcontent_html lower lossy rel_parse frag_parse cfg).
Local Notation inline_h := (inline_html lower lossy rel_parse frag_parse cfg).
Local Notation cont_h := (container_html lower lossy rel_parse frag_parse cfg).
Local Notation block_h := (block_html lower lossy highlight rel_parse frag_parse cfg).
Local Notation item_h := (item_html lower lossy highlight rel_parse frag_parse cfg).

Lemma deco_body k t f g : heq f g -> heq (deco_html lower k t f) (deco_html lower k t g).
Proof.
  intro E. destruct k; cbn [deco_html]; try (step; step; [exact E|apply heq_refl]).
  apply heq_unique. intro u. step. step. step; [exact E|apply heq_refl].
Qed.
Lemma dcs_shown cs : flat_map (fun x => dcontent_display (l_val x)) (map (n_loc nowhere (n_dc same_uri nowhere)) cs) = flat_map (fun x => dcontent_display (l_val x)) cs.
Proof. induction cs as [|x cs IH]; [reflexivity|]. cbn [map flat_map]. rewrite IH. f_equal. apply ProofRound15.dc_keeps. Qed.
Lemma deco_same k cs : Forall (fun x => dc_maps listed (l_val x) -> heq (dc_h (n_dc same_uri nowhere (l_val x))) (dc_h (l_val x))) cs ->
  all (fun x => dc_maps listed (l_val x)) cs -> heq (dc_h (DCDeco k (map (n_loc nowhere (n_dc same_uri nowhere)) cs))) (dc_h (DCDeco k cs)).
Proof.
  intros F A. cbn [dcontent_html]. rewrite dcs_shown. apply deco_body, heq_each_map. intros x I. rewrite Forall_forall in F. rewrite ProofEq.all_in in A.
  exact (F x I (A x I)).
Qed.
Lemma dc_same c : dc_maps listed c -> heq (dc_h (n_dc same_uri nowhere c)) (dc_h c).
Proof.
  induction c as [t|k cs IH|k|l] using dcontent_ind'; intro H; try apply heq_refl; [exact (deco_same k cs IH H)|]. cbn [n_dc]. rewrite (link_listed l H). apply heq_refl.
Qed.
Lemma inline_same i : inline_maps listed i -> heq (inline_h (n_inline same_uri nowhere i)) (inline_h i).
Proof.
  destruct i as [t|k cs|k|l|ts|t|t|m]; intro H; try apply heq_refl; [exact (dc_same (DCDeco k cs) H)|]. cbn [n_inline]. rewrite (link_listed l H). apply heq_refl.
Qed.
Lemma cont_same c : cont_maps listed c -> heq (cont_h (nc c)) (cont_h c).
Proof. unfold cont_maps. rewrite ProofEq.all_in. intro H. apply heq_each_map. intros x I. apply inline_same, H, I. Qed.
Lemma lines_same sep ls : all (cont_maps listed) ls ->
  heq (par_lines lower lossy rel_parse frag_parse cfg sep (map nc ls)) (par_lines lower lossy rel_parse frag_parse cfg sep ls).
Proof.
  induction ls as [|l ls IH]; intro H; [apply heq_refl|]. destruct H as [H1 H2]. specialize (IH H2).
  destruct ls as [|l' ls]; [exact (cont_same l H1)|]. cbn [map par_lines] in *. step; [exact (cont_same l H1)|]. step. exact IH.
Qed.
Lemma blank_same ls : is_blank (map nc ls) = is_blank ls.
Proof.
  unfold is_blank. f_equal. induction ls as [|l ls IH]; [reflexivity|]. cbn [map existsb]. rewrite IH. f_equal. unfold n_cont.
  induction l as [|[[] r] l IHl]; [reflexivity|..]; cbn [map existsb]; now rewrite IHl.
Qed.
Lemma table_same t : ok_table t -> block_maps listed (BTable t) -> heq (block_h (nb (BTable t))) (block_h (BTable t)).
Proof.
  intros [M _] H. cbn [block_maps] in H. rewrite ProofEq.all_in in H. set (h := n_loc nowhere (n_cell same_uri nowhere)).
  pose proof (n_table_like same_uri nowhere t M) as L. fold h in L. cbn [n_block block_html]. unfold table_html.
  assert (Hc : forall c, is_content (l_val (h c)) = is_content (l_val c)) by exact (n_cell_content _ _).
  assert (Hs : forall c, get_span (l_val (h c)) = get_span (l_val c)) by exact (n_cell_span _ _).
  assert (Ha : forall c, get_align (l_val (h c)) = get_align (l_val c)) by exact (n_cell_align _ _).
  rewrite (header_rows_like h Ha _ _ L), (body_rows_like h Ha _ _ L).
  assert (Sec : forall name tag rs, heq (section_html lower lossy rel_parse frag_parse cfg name tag (n_table same_uri nowhere t) rs)
                                        (section_html lower lossy rel_parse frag_parse cfg name tag t rs)).
  { intros name tag rs. unfold section_html. destruct rs as [|r rs]; [apply heq_refl|]. step. step. apply heq_seq; [|apply heq_refl]. apply heq_each. intros r' _. unfold row_html.
    rewrite (row_content_like h Hc _ _ L), (row_like h _ _ L), enumerate_map. destruct (row_has_content t r'); [|apply heq_refl]. step. step. step; [|apply heq_refl].
    apply heq_each_map. intros [c x] I. unfold cell_html. cbn [fst snd].
    assert (Ix : cell_maps listed (l_val x)).
    { assert (J : In x (row t r')) by (unfold enumerate in I; exact (in_combine_r _ _ _ _ I)).
      apply In_nth_error in J as [k J]. apply (ProofElem.row_nth t r' k x) in J as [J _].
      apply (ProofElem.get_cell_at t r' k x M) in J. exact (H _ J). }
    destruct x as [[x| |] g]; cbn [l_val h n_loc n_cell]; try apply heq_refl. fold h. rewrite (rowspan_like h Hc Hs _ _ L), (colspan_like h Hc Hs _ _ L).
    do 4 step. step; [exact (cont_same x Ix)|apply heq_refl]. }
  destruct L as (_ & _ & _ & _ & E). rewrite E. step. step. step; [apply Sec|]. step; [apply Sec|apply heq_refl].
Qed.
Theorem block_same b : ok_block b -> block_maps listed b -> heq (block_h (nb b)) (block_h b).
Proof.
  revert b. apply (block_ind' (fun b => ok_block b -> block_maps listed b -> heq (block_h (nb b)) (block_h b))
    (fun i => ok_item i -> item_maps listed i -> heq (item_h (ni i)) (item_h i))).
  - intros b Hnl O H. destruct b as [ls|d| |h|items|m|ls|p|c|t]; try apply heq_refl.
    + cbn [block_maps] in H. rewrite ProofEq.all_in in H. cbn [n_block block_html]. unfold deflist_html. step. step. step; [|apply heq_refl].
      apply heq_each_map. intros [[t ds] r] I. destruct (H _ I) as [H1 H2]. cbn [l_val td_term td_defs] in H1, H2. rewrite ProofEq.all_in in H2.
      cbn [n_loc n_td l_val td_term td_defs]. step. step; [exact (cont_same _ H1)|]. step. step. apply heq_each_map. intros y J. cbn [n_loc l_val].
      step. step; [exact (cont_same _ (H2 y J))|apply heq_refl].
    + cbn [block_maps] in H. cbn [n_block n_header block_html]. unfold header_html. cbn [h_content h_level h_centered]. unfold n_header. cbn [h_content h_level h_centered]. cbv zeta. rewrite ProofRound15.cont_keeps.
      apply heq_unique. intro u. step. destruct (_ && _).
      * step. step. step; [exact (cont_same _ H)|apply heq_refl].
      * apply heq_headers. intro m.
        assert (R : forall u', heq (out (bs "<h" ++ dec (N.of_nat (h_level h)) ++ bs " id=""" ++ u ++ bs """ class=""header"">") ;;
          out (bs "<a href=""#" ++ u' ++ bs """>") ;; cont_h (nc (ModelAst.h_content h)) ;; out (bs "</a></h" ++ dec (N.of_nat (h_level h)) ++ bs ">"))
          (out (bs "<h" ++ dec (N.of_nat (h_level h)) ++ bs " id=""" ++ u ++ bs """ class=""header"">") ;;
          out (bs "<a href=""#" ++ u' ++ bs """>") ;; cont_h (ModelAst.h_content h) ;; out (bs "</a></h" ++ dec (N.of_nat (h_level h)) ++ bs ">"))).
        { intro u'. step. step. step; [exact (cont_same _ H)|apply heq_refl]. }
        cbv zeta. destruct (str_eqb _ _); [apply R|]. apply heq_unique. intro u'. step. step; [apply R|apply heq_refl].
    + now destruct (Hnl items).
    + cbn [block_maps] in H. cbn [n_block block_html]. unfold paragraph_html. rewrite blank_same. destruct (is_blank ls); [exact (lines_same _ ls H)|].
      step. step; [exact (lines_same _ ls H)|apply heq_refl].
    + cbn [block_maps] in H. cbn [n_block block_html]. unfold code_html. cbn [cb_lang cb_meta cb_lines]. rewrite H. apply heq_refl.
    + exact (table_same t O H).
  - intros items IH O H. cbn [ok_block block_maps] in O, H. rewrite ProofEq.all_in in O, H. rewrite Forall_forall in IH.
    assert (E : is_ordered_list (map (n_loc nowhere ni) items) = is_ordered_list items) by (destruct items as [|[[] ?] ?]; reflexivity).
    assert (L : heq (each (fun i => item_h (l_val i) ;; ln) (map (n_loc nowhere ni) items)) (each (fun i => item_h (l_val i) ;; ln) items)).
    { apply heq_each_map. intros x I. step; [|apply heq_refl]. exact (IH x I (O x I) (H x I)). }
    change (block_h (nb (BList items))) with (out (if is_ordered_list (map (n_loc nowhere ni) items) then bs "<ol>" else bs "<ul>") ;; ln
      ;; each (fun i => item_h (l_val i) ;; ln) (map (n_loc nowhere ni) items) ;; out (if is_ordered_list (map (n_loc nowhere ni) items) then bs "</ol>" else bs "</ul>")).
    rewrite E. step. step. step; [exact L|apply heq_refl].
  - intros ty suf pos cs todo IH O H. cbn [ok_item item_maps] in O, H. rewrite ProofEq.all_in in O, H. rewrite Forall_forall in IH.
    change (heq (out (todo_open todo) ;; each (fun x => block_h (l_val x)) (map (n_loc nowhere nb) cs) ;; out (bs "</li>"))
                (out (todo_open todo) ;; each (fun x => block_h (l_val x)) cs ;; out (bs "</li>"))).
    step. step; [|apply heq_refl]. apply heq_each_map. intros x I. exact (IH x I (O x I) (H x I)).
Qed.
Local Notation page_h := (page_html lower lossy highlight rel_parse frag_parse cfg).
Theorem page_same p : ok_page p -> page_maps listed p -> heq (page_h (full_content_of same_uri p)) (page_h p).
Proof.
  unfold ok_page, page_maps. rewrite !ProofEq.all_in. intros O H. apply heq_each_map. intros x I. step; [|apply heq_refl]. exact (block_same _ (O x I) (H x I)).
Qed.
Variable read_file : path -> option str.
Variable today : date.
Theorem html_same p q : ok_page p -> ok_page q -> page_maps listed p -> page_maps listed q -> full_content_of same_uri p = full_content_of same_uri q ->
  to_html_page lower lossy highlight rel_parse frag_parse read_file today cfg p = to_html_page lower lossy highlight rel_parse frag_parse read_file today cfg q /\
  to_html_string lower lossy highlight rel_parse frag_parse cfg p = to_html_string lower lossy highlight rel_parse frag_parse cfg q.
Proof. intros P Q Hp Hq E. unfold to_html_page, to_html_string. now rewrite <- (page_same p P Hp), <- (page_same q Q Hq), E. Qed.
End Html.
