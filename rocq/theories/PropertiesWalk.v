(** Claims C86 to C88: walking through a page, positions in the text, and
    regions made from ranges. *)
From Verif Require Import Base ModelSpan ModelComb ModelAst ModelTable ModelBlock ModelOracle SpecDoc SpecBlock SpecTree SpecEq
  ModelTree SpecWalk ProofClaims2 ProofYield ProofWalk ProofWalk2.
From Coq Require Import Permutation.

Definition ln (s : string) : str := bs s ++ [b_nl].
Definition walk_text : str := ln "= a *b* =" ++ ln "- one" ++ ln "- two" ++ ln "  * x [[y]]" ++ ln "|k|_l_|" ++ ln "t:: d".
Definition walk_page : page :=
  match parse_page rfc_uri_parse ymd_parse walk_text with Ok _ p => p | _ => [] end.
Lemma walk_parsed : exists rest, parse_page rfc_uri_parse ymd_parse walk_text = Ok rest walk_page.
Proof.
  unfold walk_page. assert (H : match parse_page rfc_uri_parse ymd_parse walk_text with Ok _ _ => True | _ => False end) by (vm_compute; exact I).
  destruct (parse_page rfc_uri_parse ymd_parse walk_text) as [r p| | |]; [eauto|destruct H..].
Qed.

(** ** C86 *)
(** The walk ends; it visits every element of the page at every depth exactly
    as often as it occurs, and nothing else. *)
Theorem C86_all_visited up dp input rest p :
  parse_page up dp input = Ok rest p ->
  exists n l, (forall m, n <= m -> descend m (page_children p) = Some l) /\ Permutation (visited l) (all_elements p).
Proof.
  intro H. destruct (descend_some (length (w_nodes (page_children p))) (page_children p) (Nat.le_refl _)) as [l E].
  exists (length (w_nodes (page_children p))), l. split.
  - intros m L. exact (descend_more _ _ _ _ E L).
  - rewrite (descend_nodes _ _ _ E). symmetry. apply page_listed. exact (parsed_ok up dp input rest p H).
Qed.
Print Assumptions C86_all_visited.
Example C86_case : length (all_elements walk_page) = 25 /\
  option_map (fun l => length l) (descend 25 (page_children walk_page)) = Some 25 /\ descend 24 (page_children walk_page) = None.
Proof. vm_compute. auto. Qed.

(** It goes level by level. *)
Theorem C86_by_levels n p l :
  descend n (page_children p) = Some l ->
  exists ls, by_levels (fun x => element_children (l_val x)) (page_children p) ls /\ l = concat ls.
Proof. exact (descend_levels n (page_children p) l). Qed.
Print Assumptions C86_by_levels.

(** Full statement: every level is in the order of the text.  Proved for pages
    without tables; the cells of a table come in the order of a hash map
    ([C86_order_refuted]). *)
Theorem C86_order_partial up dp input rest p ls :
  parse_page up dp input = Ok rest p -> all (fun x => tableless (l_val x)) p ->
  by_levels (fun x => element_children (l_val x)) (page_children p) ls ->
  Forall (fun l => in_text_order 0 l (length input)) ls.
Proof.
  intros H T B. apply (levels_order (page_children p) ls 0 (length input) B).
  rewrite <- (page_relabel p T). apply (forest_relabel tree_nested tree_nested); [|exact (claim_tree_nested up dp input rest p H)].
  apply Forall_forall. intros t _. apply nested_relabel.
Qed.
Print Assumptions C86_order_partial.
Definition list_text : str := ln "= a *b* =" ++ ln "- one" ++ ln "- two" ++ ln "t:: d".
Example C86_order_case : exists rest p, parse_page rfc_uri_parse ymd_parse list_text = Ok rest p /\
  all (fun x => tableless (l_val x)) p /\
  option_map (fun l => map (fun x => r_off (l_reg x)) l) (descend 50 (page_children p)) = Some [0; 10; 22; 2; 4; 10; 16; 22; 25; 5; 12; 18; 22; 26; 12; 18].
Proof.
  destruct (parse_page rfc_uri_parse ymd_parse list_text) as [r p| | |] eqn:E; [|vm_compute in E; discriminate..].
  vm_compute in E. injection E as <- <-. eexists. eexists. split; [reflexivity|]. split; [vm_compute; tauto|]. vm_compute. reflexivity.
Qed.
(** The same table read into a hash map that yields its cells in another
    order. *)
Theorem C86_order_refuted : exists input rest r t t',
  parse_page rfc_uri_parse ymd_parse input = Ok rest [Loc (BTable t) r] /\
  Permutation (t_cells t) (t_cells t') /\ t_row_cnt t' = t_row_cnt t /\ t_col_cnt t' = t_col_cnt t /\ t_centered t' = t_centered t /\
  ~ in_text_order 0 (element_children (EBlock (BTable t'))) (length input).
Proof.
  set (t := match parse_page rfc_uri_parse ymd_parse (ln "|a|b|") with Ok _ [Loc (BTable t) _] => t | _ => Table [] 0 0 false end).
  set (rest := match parse_page rfc_uri_parse ymd_parse (ln "|a|b|") with Ok s _ => s | _ => span_of [] end).
  exists (ln "|a|b|"), rest, (Region 0 6 0), t, (Table (rev (t_cells t)) (t_row_cnt t) (t_col_cnt t) (t_centered t)).
  split; [vm_compute; reflexivity|]. split; [apply Permutation_rev|]. repeat split. vm_compute. intro H. lia.
Qed.
Print Assumptions C86_order_refuted.

(** ** C87 *)
(** Of two elements around the same position one is inside the other. *)
Theorem C87_chain up dp input rest p a b s t i :
  parse_page up dp input = Ok rest p ->
  at_path a (page_trees false p) = Some s -> at_path b (page_trees false p) = Some t ->
  within (t_reg s) i -> within (t_reg t) i -> ancestor a b \/ ancestor b a.
Proof. intro H. apply (paths_chain a b _ 0 (length input)). exact (claim_tree_nested up dp input rest p H). Qed.
Print Assumptions C87_chain.
Example C87_case : option_map t_reg (at_path [0] (page_trees false walk_page)) = Some (Region 0 10 0) /\
  option_map t_reg (at_path [0; 1; 0] (page_trees false walk_page)) = Some (Region 5 1 2) /\ within (Region 5 1 2) 5 /\ within (Region 0 10 0) 5.
Proof. vm_compute. repeat split; lia. Qed.

(** A visible byte is in exactly one block. *)
Theorem C87_one_block up dp input rest p i c :
  parse_page up dp input = Ok rest p ->
  nth_error input i = Some c -> is_space c = false -> c <> b_nl -> c <> b_cr ->
  exists j, (exists x, nth_error p j = Some x /\ within (l_reg x) i) /\
    forall k y, nth_error p k = Some y -> within (l_reg y) i -> k = j.
Proof.
  intros H E N1 N2 N3. destruct (covered_one input p 0 i c (claim_covered up dp input rest p H) ltac:(lia) E N1 N2 N3) as (j & x & J & W).
  exists j. split; [eauto|]. intros k y K Wy.
  assert (P : forall q z, nth_error p q = Some z -> at_path [q] (page_trees false p) = Some (RNode (l_reg z) (NBlock (l_val z)) (block_kids false (l_val z)))).
  { intros q z Q. cbn [at_path]. unfold page_trees. now rewrite nth_error_map, Q. }
  destruct (C87_chain up dp input rest p [k] [j] _ _ i H (P _ _ K) (P _ _ J) Wy W) as [(d & D)|(d & D)]; injection D; auto.
Qed.
Print Assumptions C87_one_block.

(** [Region::contains] decides the question. *)
Theorem C87_contains r i : region_contains r i = true <-> within r i.
Proof. unfold region_contains, within. rewrite andb_true_iff, Nat.leb_le, Nat.ltb_lt. reflexivity. Qed.
Print Assumptions C87_contains.

(** ** C88 *)
Definition below_max (n : N) : Prop := (n < usize_end)%N.
Theorem C88_range a b i : below_max a -> below_max b -> contains (of_range a b) i = Some true <-> (a <= i < b)%N.
Proof.
  unfold below_max. intros A B. unfold of_range. destruct (N.leb_spec a b) as [L|L].
  - rewrite contains_iff; cbn [e_off e_len]; lia.
  - rewrite contains_iff; cbn [e_off e_len]; lia.
Qed.
Print Assumptions C88_range.
Theorem C88_range_to b i : below_max b -> contains (of_range_to b) i = Some true <-> (i < b)%N.
Proof. unfold below_max. intro B. unfold of_range_to. rewrite contains_iff; cbn [e_off e_len]; lia. Qed.
Print Assumptions C88_range_to.
(** Full statement: the same for ranges that include their end.  Proved below
    the largest position; there the conversion panics. *)
Theorem C88_inclusive_partial a b i r : below_max a -> of_range_incl a b = Some r -> contains r i = Some true <-> (a <= i <= b)%N.
Proof.
  unfold below_max, of_range_incl, add_usize. intro A. destruct (N.ltb_spec (b + 1) usize_end) as [B|B]; [|discriminate].
  intro E. injection E as <-. destruct (N.leb_spec a (b + 1)); rewrite contains_iff; cbn [e_off e_len]; lia.
Qed.
Print Assumptions C88_inclusive_partial.
Theorem C88_inclusive_to_partial b i r : of_range_to_incl b = Some r -> contains r i = Some true <-> (i <= b)%N.
Proof.
  unfold of_range_to_incl, add_usize. destruct (N.ltb_spec (b + 1) usize_end) as [B|B]; [|discriminate].
  intro E. injection E as <-. rewrite contains_iff; cbn [e_off e_len]; lia.
Qed.
Print Assumptions C88_inclusive_to_partial.
Theorem C88_inclusive_ok a b : (exists r, of_range_incl a b = Some r) <-> (b + 1 < usize_end)%N.
Proof. unfold of_range_incl, add_usize. destruct (N.ltb_spec (b + 1) usize_end); split; eauto; try (intros [? ?]; discriminate). lia. Qed.
Print Assumptions C88_inclusive_ok.
Theorem C88_refuted : exists b, below_max b /\ of_range_incl 0 b = None /\ of_range_to_incl b = None.
Proof. exists (usize_end - 1)%N. repeat split. Qed.
Print Assumptions C88_refuted.
(** Asking a region that ends beyond the largest position panics. *)
Theorem C88_overflow_refuted : exists r i, below_max (e_off r) /\ below_max (e_len r) /\ (e_off r <= i)%N /\ contains r i = None.
Proof. exists (Extent 1 (usize_end - 1)), 1%N. repeat split. cbn. lia. Qed.
Print Assumptions C88_overflow_refuted.
(** No region has a position and is empty, or none and is not. *)
Theorem C88_empty r : (e_off r + e_len r < usize_end)%N -> extent_empty r = true <-> forall i, contains r i <> Some true.
Proof.
  intro L. unfold extent_empty. rewrite N.eqb_eq. split.
  - intros Z i. rewrite contains_iff by exact L. lia.
  - intro H. destruct (N.eq_0_gt_0_cases (e_len r)) as [Z|Z]; [exact Z|]. exfalso. apply (H (e_off r)). apply contains_iff; [exact L|lia].
Qed.
Print Assumptions C88_empty.
Example C88_case : contains (of_range 3 7) 6 = Some true /\ contains (of_range 3 7) 7 = Some false /\ contains (of_range 7 3) 7 = Some false /\
  option_map (fun r => contains r 7) (of_range_incl 3 7) = Some (Some true).
Proof. vm_compute. auto. Qed.
