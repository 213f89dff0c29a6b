(** The properties of element methods: C29-C34, C36-C38. *)
From Coq Require Import QArith Permutation Sorted.
From Verif Require Import Base ModelSpan ModelComb ModelAst ModelTable ModelLink ModelInline ModelBlock
  ModelOracle ModelElem SpecDoc SpecTree SpecElem ProofElem ProofElem2 SampleDoc.
Local Open Scope nat_scope.

Local Notation parse s := (parse_page rfc_uri_parse ymd_parse s).
Local Notation at0 v := (Loc v (Region 0 0 0)).

(** The table of a page that is one table. *)
Definition only_table (input : str) : table :=
  match parse input with
  | Ok _ p => match p with
              | x :: _ => match l_val x with BTable t => t | _ => Table [] 0 0 false end
              | [] => Table [] 0 0 false
              end
  | _ => Table [] 0 0 false
  end.
Definition headed : table := only_table (ln "|a|b|" ++ ln "|-|-|" ++ ln "|c|>|" ++ ln "|-|-|" ++ ln "|\/|d|").
Definition ragged : table := only_table (ln "|a|" ++ ln "|b|c|").

(** Tables are built by [Table::new] or by the parser. *)
Theorem C29_tables_are_maps l centered :
  is_map (table_new l centered) /\ counts_ok (table_new l centered).
Proof. exact (table_new_wf l centered). Qed.
Print Assumptions C29_tables_are_maps.
Theorem C29_parsed_tables_are_maps up dp input rest p r t :
  parse_page up dp input = Ok rest p -> In (r, NBlock (BTable t)) (elements p) ->
  is_map t /\ counts_ok t /\ rows_filled t.
Proof. exact (parsed_table up dp input rest p r t). Qed.
Print Assumptions C29_parsed_tables_are_maps.

(** ** C29 *)
Theorem C29_header_rows t : is_map t ->
  StronglySorted lt (header_rows t) /\
  forall r, In r (header_rows t) <-> exists d, first_divider t d /\ r < d.
Proof. exact (header_rows_spec t). Qed.
Print Assumptions C29_header_rows.
Theorem C29_body_rows t : is_map t ->
  StronglySorted lt (body_rows t) /\
  forall r, In r (body_rows t) <->
    r < t_row_cnt t /\ ~ divider_row t r /\ forall d, first_divider t d -> d < r.
Proof. exact (body_rows_spec t). Qed.
Print Assumptions C29_body_rows.
Theorem C29_partition t : is_map t ->
  exists ds, (forall r, In r ds <-> r < t_row_cnt t /\ divider_row t r) /\
             Permutation (seq 0 (t_row_cnt t)) (header_rows t ++ ds ++ body_rows t).
Proof. exact (rows_partition t). Qed.
Print Assumptions C29_partition.
Example C29_case : is_map headed /\ header_rows headed = [0] /\ body_rows headed = [2; 4].
Proof.
  split; [|split; vm_compute; reflexivity]. unfold is_map.
  let l := eval vm_compute in (map fst (t_cells headed)) in
  replace (map fst (t_cells headed)) with l by (vm_compute; reflexivity).
  repeat constructor; cbn; intuition discriminate.
Qed.

(** ** C30 *)
(** Full statement: [is_map t -> counts_ok t -> Permutation (cells t) (map snd
    (t_cells t))].  It is false of ragged tables. *)
Theorem C30_cells_partial t : is_map t -> counts_ok t -> rectangular t ->
  Permutation (cells t) (map snd (t_cells t)).
Proof. exact (cells_all t). Qed.
Print Assumptions C30_cells_partial.
Theorem C30_rows t : is_map t -> counts_ok t -> rows_filled t ->
  Permutation (flat_map (row t) (rows t)) (map snd (t_cells t)).
Proof. exact (rows_all t). Qed.
Print Assumptions C30_rows.
Theorem C30_refuted : exists input rest p r t,
  parse input = Ok rest p /\ In (r, NBlock (BTable t)) (elements p) /\
  length (cells t) = 1 /\ length (t_cells t) = 3.
Proof.
  exists (ln "|a|" ++ ln "|b|c|").
  let x := eval vm_compute in (parse (ln "|a|" ++ ln "|b|c|")) in
  match x with Ok ?rest ?p => exists rest, p; 
    match eval vm_compute in (elements p) with ?e :: _ => exists (fst e) end end.
  exists ragged. split; [vm_compute; reflexivity|]. split; [left; vm_compute; reflexivity|].
  split; vm_compute; reflexivity.
Qed.
Print Assumptions C30_refuted.
Example C30_case : rectangular headed /\ rows_filled ragged /\ length (t_cells headed) = 10.
Proof.
  split; [|split; [|vm_compute; reflexivity]].
  - intros r c Hr Hc. vm_compute in Hr, Hc. unfold present, at_.
    let l := eval vm_compute in (t_cells headed) in
    replace (t_cells headed) with l by (vm_compute; reflexivity).
    do 5 (destruct r as [|r]; [do 2 (destruct c as [|c]; [eexists; cbn; tauto|]); exfalso; lia|]).
    exfalso; lia.
  - intros r c c' [x Hx]. unfold present, at_ in *.
    replace (t_cells ragged) with
      (ltac:(let l := eval vm_compute in (t_cells ragged) in exact l)) in * by (vm_compute; reflexivity).
    intro L. cbn in Hx. destruct Hx as [E|[E|[E|[]]]]; injection E as <- <- <-; try lia.
    assert (c' = 0) by lia. subst. eexists. cbn. tauto.
Qed.

(** ** C31 *)
Theorem C31_colspan t r c x cs :
  is_map t -> rows_filled t -> at_ t r c x -> l_val x = CContent cs ->
  exists n, get_cell_colspan t r c = n + 1 /\ span_run (fun i => at_ t r (c + i)) FromLeft n.
Proof.
  exact (fun M F Hx Hc => colspan_spec t r c x cs M Hx Hc (fun c' L => F r c c' (ex_intro _ x Hx) L)).
Qed.
Print Assumptions C31_colspan.
(** Full statement for row spans: without the last hypothesis.  It is false
    when a row above is too short. *)
Theorem C31_rowspan_partial t r c x cs :
  is_map t -> at_ t r c x -> l_val x = CContent cs -> (forall r', r' < r -> present t r' c) ->
  exists n, get_cell_rowspan t r c = n + 1 /\ span_run (fun i => at_ t (r + i) c) FromAbove n.
Proof. exact (rowspan_spec t r c x cs). Qed.
Print Assumptions C31_rowspan_partial.
Theorem C31_other_cells t r c : is_map t ->
  (forall x, at_ t r c x -> is_content (l_val x) = false) ->
  get_cell_rowspan t r c = 0 /\ get_cell_colspan t r c = 0.
Proof.
  exact (fun M H => conj (span_of_iter_other FromAbove t r c M H) (span_of_iter_other FromLeft t r c M H)).
Qed.
Print Assumptions C31_other_cells.
Theorem C31_rowspan_refuted : exists r c x cs,
  at_ ragged r c x /\ l_val x = CContent cs /\ get_cell_rowspan ragged r c = 0.
Proof.
  exists 1, 1. unfold at_.
  let l := eval vm_compute in (t_cells ragged) in
  replace (t_cells ragged) with l by (vm_compute; reflexivity).
  do 2 eexists. split; [cbn; right; right; left; reflexivity|]. split; [reflexivity|].
  vm_compute. reflexivity.
Qed.
Print Assumptions C31_rowspan_refuted.
Example C31_case : get_cell_colspan headed 2 0 = 2 /\
  get_cell_rowspan (only_table (ln "|a|b|" ++ ln "|\/|c|" ++ ln "|\/|\/|")) 0 0 = 3.
Proof. split; vm_compute; reflexivity. Qed.

(** ** C32 *)
Theorem C32_cell_position_text p :
  (N.of_nat (cp_row p) < usize_bound)%N -> (N.of_nat (cp_col p) < usize_bound)%N ->
  cellpos_from_str (cellpos_display p) = CpOk p.
Proof. exact (cellpos_round_trip p). Qed.
Print Assumptions C32_cell_position_text.
Example C32_case : cellpos_display (CellPos 12 305) = bs "12,305" /\
  cellpos_from_str (bs " 12 , 305") = CpOk (CellPos 12 305).
Proof. split; vm_compute; reflexivity. Qed.

(** ** C33 *)
(** Full statement: for every position; it is false from 2^32 on, because the
    code truncates positions to 32 bits. *)
Theorem C33_labels_partial p lower : (p < 4294967296)%N -> letters lower (pos_to_alphabet p lower).
Proof. exact (fun H => proj1 (label_be p lower H)). Qed.
Print Assumptions C33_labels_partial.
Theorem C33_order_partial p q lower : (p < 4294967296)%N -> (q < 4294967296)%N ->
  (comes_before (pos_to_alphabet p lower) (pos_to_alphabet q lower) <-> (p < q)%N).
Proof. exact (label_order p q lower). Qed.
Print Assumptions C33_order_partial.
(** No label is skipped. *)
Theorem C33_no_gap_partial l q lower : (q < 4294967296)%N -> letters lower l ->
  comes_before l (pos_to_alphabet q lower) -> exists p, (p < q)%N /\ pos_to_alphabet p lower = l.
Proof. exact (label_initial l q lower). Qed.
Print Assumptions C33_no_gap_partial.
Theorem C33_refuted : exists p q lower, p <> q /\ pos_to_alphabet p lower = pos_to_alphabet q lower.
Proof. exists 0%N, 4294967296%N, true. split; [discriminate | vm_compute; reflexivity]. Qed.
Print Assumptions C33_refuted.
Example C33_case : map (fun p => pos_to_alphabet p true) [0; 25; 26; 701; 702]%N =
  [bs "a"; bs "z"; bs "aa"; bs "zz"; bs "aaa"].
Proof. vm_compute. reflexivity. Qed.

(** ** C34 *)
Theorem C34_progress_range i :
  match compute_todo_progress i with
  | None => marks i = []
  | Some q => marks i <> [] /\ (0 <= q <= 1)%Q /\
              ((q == 1)%Q <-> Forall (fun m => m = TodoComplete) (marks i)) /\
              ((q == 0)%Q <-> Forall (fun m => m = TodoIncomplete) (marks i))
  end.
Proof.
  pose proof (progress_good i) as H. destruct (compute_todo_progress i); [|exact H].
  destruct H as (H1 & _ & H2 & H3 & H4). exact (conj H1 (conj H2 (conj H3 H4))).
Qed.
Print Assumptions C34_progress_range.
Theorem C34_progress_mean i :
  let ps := somes (map compute_todo_progress (sub_items i)) in
  match ps with
  | [] => compute_todo_progress i = todo_progress (li_todo i)
  | _ => exists q, compute_todo_progress i = Some q /\ (q == sumQ ps / inject_Z (Z.of_nat (length ps)))%Q
  end.
Proof. exact (progress_mean i). Qed.
Print Assumptions C34_progress_mean.
Definition sub_task (t : option todo_status) (sub : list list_item) : list_item :=
  ListItem (TUnordered UHyphen) SufNone 0
    (match sub with [] => [] | _ => [at0 (BList (map (fun i => at0 i) sub))] end) t.
Example C34_case :
  let i := sub_task (Some TodoComplete)
             [sub_task (Some TodoPartial2) []; sub_task (Some TodoRejected) []; sub_task None [];
              sub_task None [sub_task (Some TodoComplete) []]] in
  marks i = [TodoPartial2; TodoComplete] /\
  match compute_todo_progress i with Some q => (q == 3 # 4)%Q | None => False end.
Proof. split; vm_compute; reflexivity. Qed.

(** ** C36 *)
Theorem C36_lookup pre x post s :
  reads_all (l_val (td_term (l_val x))) s ->
  (forall y, In y pre -> exists s', reads_all (l_val (td_term (l_val y))) s' /\ s' <> s) ->
  def_get (pre ++ x :: post) s = Some (td_defs (l_val x)).
Proof. exact (def_get_found pre x post s). Qed.
Print Assumptions C36_lookup.
Theorem C36_absent d s :
  (forall y, In y d -> exists s', reads_all (l_val (td_term (l_val y))) s' /\ s' <> s) ->
  def_get d s = None.
Proof. exact (def_get_none d s). Qed.
Print Assumptions C36_absent.
Definition only_defs (input : str) : def_list :=
  match parse input with
  | Ok _ (x :: _) => match l_val x with BDefList l => l | _ => [] end
  | _ => []
  end.
Definition marked : def_list :=
  only_defs (ln "other:: x" ++ ln "a *bold* `term` [[u|of]] TODO:: first" ++ ln ":: second").
Example C36_case : length marked = 2 /\
  exists x, nth_error marked 1 = Some x /\
    reads_all (l_val (td_term (l_val x))) (bs "a bold term of TODO") /\
    option_map (fun d => length (l_val d)) (def_get marked (bs "a bold term of TODO")) = Some 2.
Proof.
  split; [vm_compute; reflexivity|].
  let l := eval vm_compute in marked in
  match l with _ :: ?x :: _ => exists x end.
  split; [vm_compute; reflexivity|]. split; [|vm_compute; reflexivity].
  cbn [l_val td_term].
  change (bs "a bold term of TODO") with
    (bs "a " ++ (bs "bold" ++ []) ++ bs " " ++ bs "term" ++ bs " " ++ bs "of" ++ bs " " ++ bs "TODO" ++ []).
  repeat match goal with |- reads_all (_ :: _) _ => apply reads_cons end; cbn [l_val]; try (constructor; fail).
  - constructor. apply dreads_cons; constructor.
  - apply reads_link. eapply dreads_link. left. reflexivity.
Qed.

(** ** C37 *)
(** Full statement: both round trips for all parts without '#'. *)
Theorem C37_display a : Forall (fun p => ~ In x23 p) a ->
  anchor_from_fragment (anchor_display a) = Some a.
Proof. exact (anchor_display_round_trip a). Qed.
Print Assumptions C37_display.
(** What is read as an anchor is printed as it was. *)
Theorem C37_read s a : anchor_from_fragment s = Some a ->
  anchor_display a = s /\ Forall (fun p => ~ In x23 p) a.
Proof. exact (anchor_from_fragment_inv s a). Qed.
Print Assumptions C37_read.
Example C37_read_case : anchor_from_fragment (bs "#a##b") = Some [bs "a"; []; bs "b"] /\
  anchor_from_fragment (bs "page#a") = None.
Proof. split; vm_compute; reflexivity. Qed.
Theorem C37_fragment_partial a u d p : a <> [] -> Forall (fun p => ~ occurs (bs "%23") p) a ->
  u_fragment u = Some (join (bs "%23") a) ->
  anchor_to_fragment a = bs "#" ++ join (bs "%23") a /\ to_anchor (LinkData u d p) = Some a.
Proof. exact (anchor_uri_round_trip a u d p). Qed.
Print Assumptions C37_fragment_partial.
(** A typed "%23" in a part is a separator afterwards. *)
Theorem C37_fragment_refuted : exists a u d p, Forall (fun p => ~ In x23 p) a /\
  u_fragment u = Some (join (bs "%23") a) /\ to_anchor (LinkData u d p) <> Some a.
Proof.
  exists [bs "50%23"], (Uri None None false [] None (Some (bs "50%23"))), None, None.
  split; [repeat constructor; cbn; intuition discriminate|].
  split; [reflexivity | vm_compute; discriminate].
Qed.
Print Assumptions C37_fragment_refuted.
Theorem C37_encoded_refuted : exists a, Forall (fun p => ~ In x23 p) a /\
  anchor_from_fragment (anchor_to_fragment a) <> Some a.
Proof.
  exists [bs "a"; bs "b"]. split; [repeat constructor; cbn; intuition discriminate | vm_compute; discriminate].
Qed.
Print Assumptions C37_encoded_refuted.
Example C37_case : anchor_display [bs "Top"; bs "Sub section"] = bs "#Top#Sub section" /\
  match rfc_uri_parse (encode_uri (bs "Page#Top#Sub")) with
  | Some u => u_fragment u = Some (join (bs "%23") [bs "Top"; bs "Sub"]) | None => False end.
Proof. split; vm_compute; reflexivity. Qed.

(** ** C38 *)
(** Full statement: without the hypothesis; it is false because '%' itself is
    not encoded. *)
Theorem C38_encoding_partial s : (forall t, escape_triple t -> ~ occurs t s) ->
  percent_decode (encode_uri s) = s.
Proof. exact (encode_lossless s). Qed.
Print Assumptions C38_encoding_partial.
Theorem C38_refuted : exists s, percent_decode (encode_uri s) <> s.
Proof. exists (bs "100%41"). vm_compute. discriminate. Qed.
Print Assumptions C38_refuted.
(** With a typed "%23" before it, the separator of the anchor is encoded. *)
Theorem C38_refuted_separator : exists s, In x23 s /\ occurs (bs "#") (encode_uri s) /\
  encode_uri s = bs "a#b%23c" /\ s = bs "a%23b#c".
Proof.
  exists (bs "a%23b#c"). split; [cbn; tauto|]. split; [|split; vm_compute; reflexivity].
  exists (bs "a"), (bs "b%23c"). vm_compute. reflexivity.
Qed.
Print Assumptions C38_refuted_separator.
Example C38_case : encode_uri (bs "my page#a b") = bs "my%20page#a%20b" /\
  percent_decode (bs "my%20page#a%20b") = bs "my page#a b".
Proof. split; vm_compute; reflexivity. Qed.
