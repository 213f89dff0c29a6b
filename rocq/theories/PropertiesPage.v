(** The properties of parsed pages: C01-C09, C17-C28, C58-C60. *)
From Verif Require Import Base ModelSpan ModelComb ModelAst ModelTable ModelLink ModelInline ModelBlock
  ModelOracle SpecDoc SpecBlock SpecTree ProofClaims ProofClaims2 SampleDoc.

Local Notation stop r := (r_off r + r_len r).
Local Notation src input r := (slice (r_off r) (r_off r + r_len r) input).

(** ** C01 *)
Theorem C01_never_an_error up dp input :
  parse_page up dp input <> Err /\
  (forall rest p, parse_page up dp input = Ok rest p ->
     sp_start rest = length input /\ sp_end rest = length input).
Proof. exact (conj (claim_not_err up dp input) (claim_consumes up dp input)). Qed.
Print Assumptions C01_never_an_error.
Example C01_case : parse_page rfc_uri_parse ymd_parse sample = Ok sample_rest sample_page.
Proof. exact sample_parses. Qed.

(** ** C02 *)
(** Full statement: [forall input, parse_page up dp input <> Panic].  It is
    false, in three different ways. *)
Theorem C02_refuted_link : exists input,
  parse_page rfc_uri_parse ymd_parse input = Panic.
Proof. exists (bs "*see http://example.com*: more text"). vm_compute. reflexivity. Qed.
Print Assumptions C02_refuted_link.
Theorem C02_refuted_diary : exists input,
  parse_page rfc_uri_parse ymd_parse input = Panic.
Proof. exists (bs "[[diary:2021-03-05#my section]]"). vm_compute. reflexivity. Qed.
Print Assumptions C02_refuted_diary.
Theorem C02_refuted_dedent : exists input,
  parse_page rfc_uri_parse ymd_parse input = Panic.
Proof.
  exists (bs " {{{" ++ [b_nl; xc2; xa0] ++ ln "x" ++ ln " }}}"). vm_compute. reflexivity.
Qed.
Print Assumptions C02_refuted_dedent.

(** These are the only ways: a UTF-8 page without them is parsed. *)
Theorem C02_no_panic_partial up dp input :
  valid_utf8 input -> ~ wide_space input -> ~ cut_link up input -> ~ bad_diary up input ->
  exists rest p, parse_page up dp input = Ok rest p.
Proof. exact (claim_no_panic up dp input). Qed.
Print Assumptions C02_no_panic_partial.
Theorem C02_panic_sites_partial up dp input :
  parse_page up dp input = Panic -> cut_link up input \/ bad_diary up input \/ split_space input.
Proof. exact (claim_panic up dp input). Qed.
Print Assumptions C02_panic_sites_partial.
Example C02_sites_case :
  parse_page rfc_uri_parse ymd_parse (bs "*see http://example.com*: more text") = Panic.
Proof. vm_compute. reflexivity. Qed.
Example C02_case : let input := bs "= a =" in
  valid_utf8 input /\ ~ wide_space input /\ ~ cut_link rfc_uri_parse input /\ ~ bad_diary rfc_uri_parse input.
Proof.
  cbv zeta. repeat split.
  - exists (map (fun b => [b]) (bs "= a =")). split; [|reflexivity].
    repeat constructor; apply U1; cbn; unfold in_range; vm_compute; repeat constructor.
  - intros (i & c & Hc & Hl & Hs).
    do 5 (destruct i as [|i]; [repeat (destruct Hc as [<-|Hc]; [first [cbn in Hl; lia | vm_compute in Hs; discriminate]|]); contradiction|]).
    assert (E : skipn (S (S (S (S (S i))))) (bs "= a =") = []) by (destruct i; reflexivity).
    rewrite E in Hs. destruct c; [cbn in Hl; lia | discriminate].
  - intros (i & t & k & j & u & _ & _ & _ & _ & Hk & _).
    apply nth_error_In in Hk. cbn in Hk. repeat (destruct Hk as [Hk|Hk]; [discriminate|]). contradiction.
  - intros (lo & hi & body & a & (E & _) & _).
    assert (In x5b (slice lo hi (bs "= a ="))) by (rewrite E; left; reflexivity).
    unfold slice in H.
    assert (K : In x5b (bs "= a =")).
    { rewrite <- (firstn_skipn lo (bs "= a =")). apply in_or_app. right.
      rewrite <- (firstn_skipn (hi - lo) (skipn lo (bs "= a ="))). apply in_or_app. now left. }
    cbn in K. repeat (destruct K as [K|K]; [discriminate|]). contradiction.
Qed.

(** ** C03 *)
Theorem C03_terminates up dp input : parse_page up dp input <> OutOfFuel.
Proof. exact (claim_terminates up dp input). Qed.
Print Assumptions C03_terminates.

(** ** C04 *)
Theorem C04_regions_in_bounds up dp input rest p r n :
  parse_page up dp input = Ok rest p -> In (r, n) (elements p) -> stop r <= length input.
Proof. exact (claim_in_bounds up dp input rest p r n). Qed.
Print Assumptions C04_regions_in_bounds.
Example C04_case : exists r n, In (r, n) (elements sample_page) /\ r_len r = 38.
Proof. do 2 eexists. split; [sample_element 9 | reflexivity]. Qed.

(** ** C05 *)
(** Full statement: the same for [page_trees true], in which the pairs and
    bundles of definition lists are nodes too; it is false. *)
Theorem C05_nested_partial up dp input rest p :
  parse_page up dp input = Ok rest p -> forest tree_nested 0 (page_trees false p) (length input).
Proof. exact (claim_tree_nested up dp input rest p). Qed.
Print Assumptions C05_nested_partial.
Theorem C05_refuted : exists input rest p,
  parse_page rfc_uri_parse ymd_parse input = Ok rest p /\
  ~ forest tree_nested 0 (page_trees true p) (length input).
Proof.
  exists (ln "t:: d"). do 2 eexists. split; [vm_compute; reflexivity|]. intro H. vm_compute in H.
  repeat match goal with H : _ /\ _ |- _ => destruct H end. lia.
Qed.
Print Assumptions C05_refuted.
Example C05_case : length (page_trees false sample_page) = 11.
Proof. vm_compute. reflexivity. Qed.

(** ** C06 *)
Theorem C06_text_is_slice up dp input rest p r t :
  parse_page up dp input = Ok rest p ->
  In (r, NInline (IText t)) (elements p) \/ In (r, NDeco (DCText t)) (elements p) ->
  t = src input r.
Proof.
  exact (fun H K => match K with
    | or_introl K => claim_text up dp input rest p r t H K
    | or_intror K => claim_deco_text up dp input rest p r t H K end).
Qed.
Print Assumptions C06_text_is_slice.
Example C06_case : exists r, In (r, NInline (IText (bs "some "))) (elements sample_page).
Proof. eexists. sample_element 5. Qed.
Example C06_case_deco : exists r, In (r, NDeco (DCText (bs "b"))) (elements sample_page).
Proof. eexists. sample_element 3. Qed.

(** ** C07 *)
Theorem C07_containers_tile up dp input rest p r n c :
  parse_page up dp input = Ok rest p -> In (r, n) (elements p) -> In c (containers n) ->
  exists lo hi, r_off r <= lo /\ lo < hi /\ hi <= stop r /\ tiles lo c hi.
Proof. exact (claim_tiles up dp input rest p r n c). Qed.
Print Assumptions C07_containers_tile.
Theorem C07_paragraph_lines_tile up dp input rest p r ls :
  parse_page up dp input = Ok rest p -> In (r, NBlock (BParagraph ls)) (elements p) ->
  ls <> [] /\ lines_tile input (r_off r) ls (stop r).
Proof. exact (claim_lines_tile up dp input rest p r ls). Qed.
Print Assumptions C07_paragraph_lines_tile.
Example C07_case : exists r c, In (r, NBlock (BParagraph [c])) (elements sample_page) /\ length c = 4.
Proof. do 2 eexists. split; [sample_element 4 | reflexivity]. Qed.

(** ** C08 *)
(** Full statement: the same with [boundary] for the ends of all nodes; it is
    false for the pairs (term and definitions) of definition lists. *)
Theorem C08_boundaries_partial up dp input rest p r n :
  parse_page up dp input = Ok rest p -> valid_utf8 input -> In (r, n) (elements p) ->
  boundary input (r_off r) /\
  match n with NPair _ => True | _ => boundary input (stop r) /\ valid_utf8 (src input r) end.
Proof. exact (claim_boundary up dp input rest p r n). Qed.
Print Assumptions C08_boundaries_partial.
Theorem C08_refuted : exists input rest p r n,
  parse_page rfc_uri_parse ymd_parse input = Ok rest p /\ valid_utf8 input /\
  In (r, n) (elements p) /\ ~ boundary input (stop r).
Proof.
  exists (bs "t:: " ++ [xc3; xa9; xc3; xa9; xc3; xa9] ++ [b_nl] ++ bs ":: b").
  do 4 eexists. split; [vm_compute; reflexivity|]. split; [|split].
  - exists (map (fun b => [b]) (bs "t:: ") ++ repeat [xc3; xa9] 3 ++ map (fun b => [b]) ([b_nl] ++ bs ":: b")).
    split; [|reflexivity].
    repeat constructor; first [apply U1 | apply U2]; unfold in_range, tail_byte, in_range; vm_compute; repeat constructor.
  - refine (nth_error_In _ 1 _). vm_compute. reflexivity.
  - cbn [r_off r_len]. intros (_ & _ & cs & Hcs & E). vm_compute in E.
    destruct cs as [|c cs]; [discriminate|]. inversion Hcs as [|? ? Hc _]; subst.
    inversion Hc; subst; cbn in E; injection E; intros; subst;
      unfold in_range in *; repeat match goal with H : _ <= byte_n _ <= _ |- _ => vm_compute in H end; lia.
Qed.
Print Assumptions C08_refuted.
Example C08_case : valid_utf8 sample.
Proof.
  exists (map (fun b => [b]) sample). split; [|vm_compute; reflexivity].
  apply Forall_forall. intros c Hc. apply in_map_iff in Hc as (b & <- & Hb). apply U1. unfold in_range.
  assert (K : forallb (fun b => byte_n b <=? 127) sample = true) by (vm_compute; reflexivity).
  rewrite forallb_forall in K. apply K in Hb. apply Nat.leb_le in Hb. lia.
Qed.

(** ** C09 *)
Theorem C09_block_parsers_forward up dp :
  let any := fun _ : span => True in
  forward any (p_header up dp) /\ forward any p_divider /\ forward any (p_placeholder dp) /\
  forward any p_blockquote /\ forward any p_code_block /\ forward any p_math_block /\
  forward any (p_table up dp) /\ forward any (p_list up dp) /\
  forward inline_start (p_definition_list up dp) /\ forward inline_start (p_paragraph up dp).
Proof. exact (forward_blocks up dp). Qed.
Print Assumptions C09_block_parsers_forward.
Theorem C09_inline_parsers_forward up dp :
  let any := fun _ : span => True in
  forward any p_comment /\ forward any code_inline /\ forward any math_inline /\ forward any tags /\
  forward any (raw_link up) /\ forward any (p_transclusion up) /\ forward any (p_link up dp) /\
  forward any p_keyword /\ forward any (p_decorated up dp) /\
  forward inline_start (inline_element_container up dp).
Proof. exact (forward_inlines up dp). Qed.
Print Assumptions C09_inline_parsers_forward.
Example C09_case : exists s' a, let s := Span (bs "*a* b") 0 5 2 in
  wf_span s /\ inline_start s /\
  inline_element_container rfc_uri_parse ymd_parse s = Ok s' a /\ p_header rfc_uri_parse ymd_parse s = Err.
Proof.
  do 2 eexists. cbv zeta. split; [split; vm_compute; lia|]. split; [right; left; now left|].
  split; vm_compute; reflexivity.
Qed.

(** ** C17 *)
Theorem C17_headers up dp input rest p r h :
  parse_page up dp input = Ok rest p -> In (r, NBlock (BHeader h)) (elements p) ->
  header_ok up dp input (soft_boundary input) (r_depth r) (r_off r) (stop r) h.
Proof. exact (claim_header up dp input rest p r h). Qed.
Print Assumptions C17_headers.
Example C17_case : exists r h, In (r, NBlock (BHeader h)) (elements sample_page) /\ h_level h = 1.
Proof. do 2 eexists. split; [sample_element 0 | reflexivity]. Qed.

(** ** C18 (one direction; the parser itself is in PropertiesSpan) *)
Theorem C18_dividers up dp input rest p r :
  parse_page up dp input = Ok rest p -> In (r, NBlock BDivider) (elements p) ->
  divider_ok input (r_off r) (stop r).
Proof. exact (claim_divider up dp input rest p r). Qed.
Print Assumptions C18_dividers.
Example C18_page_case : exists r, In (r, NBlock BDivider) (elements sample_page).
Proof. eexists. sample_element 40. Qed.

(** ** C19 *)
Theorem C19_list_positions up dp input rest p r items :
  parse_page up dp input = Ok rest p -> In (r, NBlock (BList items)) (elements p) ->
  items <> [] /\ map (fun x => li_pos (l_val x)) items = seq 0 (length items).
Proof. exact (claim_list_pos up dp input rest p r items). Qed.
Print Assumptions C19_list_positions.
Example C19_case : exists r items, In (r, NBlock (BList items)) (elements sample_page) /\ length items = 2.
Proof. do 2 eexists. split; [sample_element 9 | reflexivity]. Qed.

(** ** C20 *)
Theorem C20_item_content up dp input rest p r i :
  parse_page up dp input = Ok rest p -> In (r, NItem i) (elements p) ->
  li_contents i <> [] /\
  exists k, item_ok up dp input (soft_boundary input) k (r_depth r) (r_off r) (stop r) i.
Proof.
  exact (fun H K => conj (claim_item_content up dp input rest p r i H K) (claim_item up dp input rest p r i H K)).
Qed.
Print Assumptions C20_item_content.
Theorem C20_uniform_type up dp input rest p r items :
  parse_page up dp input = Ok rest p -> In (r, NBlock (BList items)) (elements p) ->
  exists first others, items = first :: others /\
    Forall (fun x => li_ty (l_val x) = li_ty (l_val first)) others /\
    exists pre, prefix_ok (li_ty (l_val first)) (li_suffix (l_val first)) pre /\
                starts_with pre (slice (r_off (l_reg first)) (stop r) input) = true.
Proof. exact (claim_list_type up dp input rest p r items). Qed.
Print Assumptions C20_uniform_type.
Example C20_case : exists r i, In (r, NItem i) (elements sample_page) /\ length (li_contents i) = 2.
Proof. do 2 eexists. split; [sample_element 14 | reflexivity]. Qed.

(** ** C21 *)
Theorem C21_table_cells up dp input rest p r t :
  parse_page up dp input = Ok rest p -> In (r, NBlock (BTable t)) (elements p) ->
  NoDup (map fst (t_cells t)) /\
  (forall i j, has_cell t i j -> i < t_row_cnt t /\ j < t_col_cnt t /\ forall j', j' <= j -> has_cell t i j') /\
  (forall i, i < t_row_cnt t -> has_cell t i 0) /\
  (exists j, has_cell t (t_row_cnt t - 1) j) /\
  (exists i, i < t_row_cnt t /\ forall x a, In (CellPos i 0, x) (t_cells t) -> l_val x <> CAlign a).
Proof. exact (claim_table_cells up dp input rest p r t). Qed.
Print Assumptions C21_table_cells.
Theorem C21_table_source up dp input rest p r t :
  parse_page up dp input = Ok rest p -> In (r, NBlock (BTable t)) (elements p) ->
  exists nested, table_ok up dp input (soft_boundary input) nested (r_depth r) (r_off r) (stop r) t.
Proof. exact (claim_table up dp input rest p r t). Qed.
Print Assumptions C21_table_source.
Example C21_case : exists r t, In (r, NBlock (BTable t)) (elements sample_page) /\ t_row_cnt t = 3.
Proof. do 2 eexists. split; [sample_element 21 | reflexivity]. Qed.

(** ** C22 *)
Theorem C22_definitions up dp input rest p r l :
  parse_page up dp input = Ok rest p -> In (r, NBlock (BDefList l)) (elements p) ->
  l <> [] /\ Forall (fun x => l_val (td_term (l_val x)) <> [] /\ l_val (td_defs (l_val x)) <> [] /\
                              Forall (fun d => l_val d <> []) (l_val (td_defs (l_val x)))) l.
Proof. exact (claim_defs_ne up dp input rest p r l). Qed.
Print Assumptions C22_definitions.
Theorem C22_definitions_source up dp input rest p r l :
  parse_page up dp input = Ok rest p -> In (r, NBlock (BDefList l)) (elements p) ->
  l <> [] /\ def_items_ok up dp input (soft_boundary input) (S (r_depth r)) (r_off r) l (stop r).
Proof. exact (claim_defs up dp input rest p r l). Qed.
Print Assumptions C22_definitions_source.
Example C22_case : exists r x, In (r, NBlock (BDefList [x])) (elements sample_page) /\
  length (l_val (td_defs (l_val x))) = 2.
Proof. do 2 eexists. split; [sample_element 31 | reflexivity]. Qed.

(** ** C23 *)
Theorem C23_code_verbatim up dp input rest p r c :
  parse_page up dp input = Ok rest p -> In (r, NBlock (BCode c)) (elements p) ->
  code_text input (stop r) c (src input r).
Proof. exact (claim_code up dp input rest p r c). Qed.
Print Assumptions C23_code_verbatim.
Theorem C23_math_verbatim up dp input rest p r m :
  parse_page up dp input = Ok rest p -> In (r, NBlock (BMath m)) (elements p) ->
  math_text input (stop r) m (src input r).
Proof. exact (claim_math up dp input rest p r m). Qed.
Print Assumptions C23_math_verbatim.
Example C23_case : exists r c, In (r, NBlock (BCode c)) (elements sample_page) /\ cb_lines c = [bs "  let x = 1;"].
Proof. do 2 eexists. split; [sample_element 41 | reflexivity]. Qed.
Example C23_case_math : exists r c, In (r, NBlock (BMath c)) (elements sample_page) /\ mb_lines c = [bs "x"].
Proof. do 2 eexists. split; [sample_element 42 | reflexivity]. Qed.

(** ** C24 *)
Theorem C24_code_fence up dp input rest p r c :
  parse_page up dp input = Ok rest p ->
  (forall i, r_off r < i -> ~ fence_at input (bs "}}}") i) ->
  ~ In (r, NBlock (BCode c)) (elements p).
Proof.
  exact (fun H Hno K => match claim_code_closed up dp input rest p r c H K with
    ex_intro _ i (conj L (conj _ F)) => Hno i L F end).
Qed.
Print Assumptions C24_code_fence.
Theorem C24_math_fence up dp input rest p r m :
  parse_page up dp input = Ok rest p ->
  (forall i, r_off r < i -> ~ fence_at input (bs "}}$") i) ->
  ~ In (r, NBlock (BMath m)) (elements p).
Proof.
  exact (fun H Hno K => match claim_math_closed up dp input rest p r m H K with
    ex_intro _ i (conj L (conj _ F)) => Hno i L F end).
Qed.
Print Assumptions C24_math_fence.
Example C24_case : exists rest p r ls,
  parse_page rfc_uri_parse ymd_parse (ln "{{{" ++ ln "x") = Ok rest p /\
  In (r, NBlock (BParagraph ls)) (elements p) /\ r_off r = 0.
Proof.
  do 4 eexists. split; [vm_compute; reflexivity|]. split.
  - refine (nth_error_In _ 0 _); vm_compute; reflexivity.
  - reflexivity.
Qed.

(** ** C25 *)
Theorem C25_blockquotes up dp input rest p r ls :
  parse_page up dp input = Ok rest p -> In (r, NBlock (BBlockquote ls)) (elements p) ->
  blockquote_ok input (r_off r) (stop r) ls.
Proof. exact (claim_quote up dp input rest p r ls). Qed.
Print Assumptions C25_blockquotes.
Example C25_case : exists r, In (r, NBlock (BBlockquote [bs "quote"; bs "more"])) (elements sample_page).
Proof. eexists. sample_element 43. Qed.

(** ** C26 *)
(** Full statement: a line comment extends to the end of its line.  In a
    header, a table cell or a term it only extends to the end of that. *)
Theorem C26_line_comment_partial up dp input rest p r n c c1 x c2 t :
  parse_page up dp input = Ok rest p -> In (r, n) (elements p) -> In c (containers n) ->
  c = c1 ++ x :: c2 -> l_val x = IComment (CLine t) ->
  c2 = [] \/ line_break input (stop (l_reg x)).
Proof. exact (claim_comment_last up dp input rest p r n c c1 x c2 t). Qed.
Print Assumptions C26_line_comment_partial.
Theorem C26_refuted : exists input rest p r t,
  parse_page rfc_uri_parse ymd_parse input = Ok rest p /\
  In (r, NInline (IComment (CLine t))) (elements p) /\ ~ line_ends input (stop r).
Proof.
  exists (ln "|a %%b|c|"). do 4 eexists. split; [vm_compute; reflexivity|]. split.
  - refine (nth_error_In _ 3 _). vm_compute. reflexivity.
  - intros (e & E & [->|[->|[-> H]]]); [vm_compute in E; discriminate E | vm_compute in E; discriminate E|].
    vm_compute in H. destruct H as [H|[H|H]]; discriminate H.
Qed.
Print Assumptions C26_refuted.
Theorem C26_comment_verbatim up dp input rest p r x :
  parse_page up dp input = Ok rest p -> In (r, NInline (IComment x)) (elements p) ->
  match x with
  | CLine t => src input r = bs "%%" ++ t /\ no_nl t
  | CMulti ls => exists body, src input r = bs "%%+" ++ body ++ bs "+%%" /\
                              absent (bs "+%%") body /\ comment_text ls body
  end.
Proof. exact (claim_inline up dp input rest p r (IComment x)). Qed.
Print Assumptions C26_comment_verbatim.
Example C26_case : exists r, In (r, NInline (IComment (CLine (bs "comment")))) (elements sample_page).
Proof. eexists. sample_element 48. Qed.

(** ** C27 *)
(** Full statement: inline code never contains its delimiter.  False: *)
Theorem C27_refuted : exists input rest p r,
  parse_page rfc_uri_parse ymd_parse input = Ok rest p /\
  In (r, NInline (ICode (bs "`"))) (elements p).
Proof.
  exists (bs "```"). do 3 eexists. split; [vm_compute; reflexivity|].
  refine (nth_error_In _ 1 _). vm_compute. reflexivity.
Qed.
Print Assumptions C27_refuted.
(** The delimiter can only be the first byte; everything else holds. *)
Theorem C27_code_partial up dp input rest p r t :
  parse_page up dp input = Ok rest p -> In (r, NInline (ICode t)) (elements p) ->
  src input r = bs "`" ++ t ++ bs "`" /\ t <> [] /\ no_nl t /\ absent (bs "%%") t /\
  (forall i, 0 < i -> starts_with (bs "`") (skipn i (t ++ bs "`")) = true -> length t <= i).
Proof. exact (claim_inline up dp input rest p r (ICode t)). Qed.
Print Assumptions C27_code_partial.
Theorem C27_math up dp input rest p r t :
  parse_page up dp input = Ok rest p -> In (r, NInline (IMath t)) (elements p) ->
  src input r = bs "$" ++ t ++ bs "$" /\ t <> [] /\ no_nl t /\ absent (bs "%%") t /\ ~ In x24 t.
Proof. exact (claim_inline up dp input rest p r (IMath t)). Qed.
Print Assumptions C27_math.
Example C27_case : exists r, In (r, NInline (ICode (bs "code"))) (elements sample_page).
Proof. eexists. sample_element 6. Qed.
Example C27_case_math : exists r, In (r, NInline (IMath (bs "x"))) (elements sample_page).
Proof. eexists. sample_element 8. Qed.

(** ** C28 *)
Theorem C28_tags up dp input rest p r ts :
  parse_page up dp input = Ok rest p -> In (r, NInline (ITags ts)) (elements p) ->
  word_start input (r_off r) /\ ts <> [] /\
  Forall (fun t => t <> [] /\ Forall (fun b => b <> x3a /\ is_ascii_ws b = false) t) ts /\
  (exists more, src input r = bs ":" ++ concat (map (fun t => t ++ bs ":") ts) ++ more) /\
  Forall (fun b => is_ascii_ws b = false) (src input r).
Proof. exact (claim_inline up dp input rest p r (ITags ts)). Qed.
Print Assumptions C28_tags.
Example C28_case : exists r, In (r, NInline (ITags [bs "tag"; bs "other"])) (elements sample_page).
Proof. eexists. sample_element 46. Qed.

(** ** C58 *)
(** Full statement: the same for [page_trees true]; false, because the pairs
    of definition lists always have depth 0. *)
Theorem C58_depth_partial up dp input rest p :
  parse_page up dp input = Ok rest p -> Forall (depth_ok 0) (page_trees false p).
Proof. exact (claim_depth up dp input rest p). Qed.
Print Assumptions C58_depth_partial.
Theorem C58_refuted : exists input rest p,
  parse_page rfc_uri_parse ymd_parse input = Ok rest p /\ ~ Forall (depth_ok 0) (page_trees true p).
Proof.
  exists (ln "t:: d"). do 2 eexists. split; [vm_compute; reflexivity|]. intro H. vm_compute in H.
  inversion H as [|? ? H1 _]. destruct H1 as (_ & (H1 & _) & _). discriminate H1.
Qed.
Print Assumptions C58_refuted.
Example C58_case : exists r n, In (r, n) (elements sample_page) /\ r_depth r = 5.
Proof. do 2 eexists. split; [sample_element 20 | reflexivity]. Qed.

(** ** C59 *)
Theorem C59_page_covered up dp input rest p :
  parse_page up dp input = Ok rest p -> page_covered input 0 p.
Proof. exact (claim_covered up dp input rest p). Qed.
Print Assumptions C59_page_covered.
Example C59_case : length sample_page = 11.
Proof. vm_compute. reflexivity. Qed.

(** ** C60 *)
(** Full statement: the parts of a decorated text tile the text between its
    delimiters.  False: inline code in it is dropped. *)
Theorem C60_refuted : exists input rest p r cs,
  parse_page rfc_uri_parse ymd_parse input = Ok rest p /\
  In (r, NInline (IDeco Bold cs)) (elements p) /\
  src input r = bs "*a `code` b*" /\ map l_val cs = [DCText (bs "a ")].
Proof.
  exists (bs "*a `code` b*"). do 4 eexists. split; [vm_compute; reflexivity|]. split; [|split].
  - refine (nth_error_In _ 1 _). vm_compute. reflexivity.
  - vm_compute. reflexivity.
  - vm_compute. reflexivity.
Qed.
Print Assumptions C60_refuted.
(** What is kept starts right after the delimiter, without gaps. *)
Theorem C60_decorated_partial up dp input rest p r k cs :
  parse_page up dp input = Ok rest p -> In (r, NInline (IDeco k cs)) (elements p) ->
  dc_ok up dp input (soft_boundary input) (r_depth r) (r_off r) (stop r) (DCDeco k cs).
Proof. exact (claim_inline up dp input rest p r (IDeco k cs)). Qed.
Print Assumptions C60_decorated_partial.
Example C60_case : exists r x, In (r, NInline (IDeco Bold [x])) (elements sample_page).
Proof. do 2 eexists. sample_element 2. Qed.

(** ** C61 *)
Theorem C61_placeholders up dp input rest p r x :
  parse_page up dp input = Ok rest p -> In (r, NBlock (BPlaceholder x)) (elements p) ->
  bol input (r_off r) /\ placeholder_text_ok dp x (src input r) /\ line_ends input (stop r).
Proof. exact (claim_placeholder up dp input rest p r x). Qed.
Print Assumptions C61_placeholders.
Example C61_case : exists r, In (r, NBlock (BPlaceholder (PTitle (bs "My page")))) (elements sample_page).
Proof. eexists. sample_element 44. Qed.

(** ** C62 *)
Theorem C62_links up dp input rest p r l :
  parse_page up dp input = Ok rest p -> In (r, NInline (ILink l)) (elements p) ->
  link_ok up dp input (r_off r) (stop r) l.
Proof. exact (claim_inline up dp input rest p r (ILink l)). Qed.
Print Assumptions C62_links.
Theorem C62_keywords up dp input rest p r k :
  parse_page up dp input = Ok rest p -> In (r, NInline (IKeyword k)) (elements p) ->
  src input r = kw_str k.
Proof. exact (claim_inline up dp input rest p r (IKeyword k)). Qed.
Print Assumptions C62_keywords.
Example C62_case : exists r l, In (r, NInline (ILink l)) (elements sample_page).
Proof. do 2 eexists. sample_element 13. Qed.
