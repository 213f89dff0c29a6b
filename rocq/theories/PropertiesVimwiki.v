(** Vimwiki output (C50, C51, C53). *)
From Verif Require Import Base ModelSpan ModelComb ModelAst ModelLink ModelInline ModelBlock ModelOracle ModelElem ModelTable
  ModelVimwiki SpecDoc SpecTree SpecElem SpecVw ProofEnv ProofElem2 ProofVw ProofVw2 ProofVw3.
Local Open Scope nat_scope.

Local Notation nl s := (bs s ++ [x0a]).
Definition the_roman (upper : bool) (n : Z) : str := if upper then bs "I" else bs "i".
Definition vw_page (input : str) : page :=
  match parse_page rfc_uri_parse ymd_parse input with Ok _ p => p | _ => [] end.
Definition vw (p : page) : option str := page_to_vimwiki default_vw the_roman (fun s => s) p.

(** * C50 *)

(** Full statement: every content cell of a parsed table appears in the output.
    The theorem says exactly where each cell of a parsed table appears: the
    output is a grid of cells with columns of equal width; a cell up to which
    no cell is missing shows its text (padded with spaces), an alignment cell
    shows its marker, with a dash when the column has a text; all other cells
    are blank.  Missing: tables in which a
    row is shorter than another lose the text after the gap, see
    [C50_refuted]. *)
Theorem C50_layout_partial up dp input rest p reg t cfg roman lossy o :
  parse_page up dp input = Ok rest p -> In (reg, NBlock (BTable t)) (elements p) ->
  block_to_vimwiki cfg roman lossy (BTable t) = Some o ->
  exists g, o = table_text (t_centered t) g /\
    length g = t_row_cnt t /\ Forall (fun row => length row = t_col_cnt t) g /\
    (forall c row1 row2 s1 s2, In row1 g -> In row2 g ->
       nth_error row1 c = Some s1 -> nth_error row2 c = Some s2 -> length s1 = length s2) /\
    forall r c row s, nth_error g r = Some row -> nth_error row c = Some s ->
      (forall x, at_ t r c x -> reached t r c ->
         match l_val x with
         | CContent y => exists u, run_vw (container_vw cfg lossy y) = Some u /\ surrounded u s
         | CSpan FromLeft => surrounded (bs ">") s
         | CSpan FromAbove => surrounded (bs "\/") s
         | CAlign a => marker a s
         end) /\
      (forall x a, at_ t r c x -> l_val x = CAlign a -> marker a s) /\
      (forall x a r' x', at_ t r c x -> l_val x = CAlign a -> walked t r c ->
         at_ t r' c x' -> reached t r' c -> (forall b, l_val x' <> CAlign b) -> In x2d s) /\
      (~ reached t r c -> (forall x a, at_ t r c x -> l_val x <> CAlign a) -> spaces s).
Proof.
  intros E I F. destruct (parsed_table up dp input rest p reg t E I) as (M & W & _).
  exact (table_layout cfg roman lossy t o M W F).
Qed.
Print Assumptions C50_layout_partial.

(** When no row is short, every cell of the table is shown. *)
Theorem C50_rectangular_partial up dp input rest p reg t cfg roman lossy o :
  parse_page up dp input = Ok rest p -> In (reg, NBlock (BTable t)) (elements p) -> rectangular t ->
  block_to_vimwiki cfg roman lossy (BTable t) = Some o ->
  exists g, o = table_text (t_centered t) g /\
    forall r c x y, at_ t r c x -> l_val x = CContent y ->
      exists row s u, nth_error g r = Some row /\ nth_error row c = Some s /\
        run_vw (container_vw cfg lossy y) = Some u /\ surrounded u s.
Proof.
  intros E I R F. destruct (parsed_table up dp input rest p reg t E I) as (M & W & _).
  destruct (table_layout cfg roman lossy t o M W F) as (g & Eg & L1 & L2 & _ & H).
  exists g. split; auto. intros r c x y A V. destruct (W r c) as [Hr Hc]; [now exists x|].
  destruct (nth_error g r) as [row|] eqn:Er; [|apply nth_error_None in Er; lia].
  assert (L : length row = t_col_cnt t) by (rewrite Forall_forall in L2; eapply L2, nth_error_In; eauto).
  destruct (nth_error row c) as [s|] eqn:Ec; [|apply nth_error_None in Ec; lia].
  destruct (H r c row s Er Ec) as [H1 _]. specialize (H1 x A (rect_reached t r c R Hr)). rewrite V in H1.
  destruct H1 as (u & U1 & U2). exists row, s, u. auto.
Qed.
Print Assumptions C50_rectangular_partial.

Definition printed_table (input : str) : option (table * option str) :=
  match vw_page input with
  | [Loc (BTable t) _] => Some (t, block_to_vimwiki default_vw the_roman (fun s => s) (BTable t))
  | _ => None
  end.
Example C50_case :
  option_map snd (printed_table (nl "|name|n|" ++ nl "|---|:-:|" ++ nl "|>|*b* c|")) =
  Some (Some (nl "| name | n     |" ++ nl "|------|:-----:|" ++ nl "| >    | *b* c |")).
Proof. vm_compute. reflexivity. Qed.

(** The text [yyyy] of the third row is lost. *)
Theorem C50_refuted :
  exists input rest p reg t x y o,
    parse_page rfc_uri_parse ymd_parse input = Ok rest p /\ In (reg, NBlock (BTable t)) (elements p) /\
    at_ t 2 1 x /\ l_val x = CContent y /\
    run_vw (container_vw default_vw (fun s => s) y) = Some (bs "yyyy") /\
    block_to_vimwiki default_vw the_roman (fun s => s) (BTable t) = Some o /\
    ~ exists a b, o = a ++ bs "yyyy" ++ b.
Proof.
  exists (nl "|a|b|" ++ nl "|c|" ++ nl "|xx|yyyy|").
  eexists _, _, _, _, _, _, _.
  split; [vm_compute; reflexivity|]. split; [left; reflexivity|].
  split; [right; right; right; right; left; reflexivity|]. split; [reflexivity|].
  split; [vm_compute; reflexivity|]. split; [vm_compute; reflexivity|].
  intros (a & b & H). apply (f_equal (fun s => existsb (Byte.eqb x79) s)) in H.
  rewrite !existsb_app in H. cbn in H. rewrite orb_true_r in H. discriminate H.
Qed.
Print Assumptions C50_refuted.

(** * C51 *)

(** Full statement: formatting a parsed page returns.  What is proved: it
    returns exactly when each of its tables can be formatted; when no row of a
    table is short, this is so unless a column that holds nothing but
    alignment markers has a marker with a colon.  Missing: such columns panic,
    see [C51_refuted]. *)
Theorem C51_tables_partial up dp input rest p cfg roman lossy :
  parse_page up dp input = Ok rest p ->
  page_to_vimwiki cfg roman lossy p = None <->
  exists t, In t (page_tables p) /\ block_to_vimwiki cfg roman lossy (BTable t) = None.
Proof.
  intro E. apply page_returns. apply Forall_forall. intros t I. apply page_tables_nodes in I as [r I].
  destruct (parsed_table up dp input rest p r t E I) as (M & W & _). auto.
Qed.
Print Assumptions C51_tables_partial.

Theorem C51_no_table up dp input rest p cfg roman lossy :
  parse_page up dp input = Ok rest p -> page_tables p = [] ->
  page_to_vimwiki cfg roman lossy p <> None.
Proof.
  intros E N F. apply (C51_tables_partial _ _ _ _ _ cfg roman lossy E) in F as (t & I & _). rewrite N in I. destruct I.
Qed.
Print Assumptions C51_no_table.

Theorem C51_rectangular_partial up dp input rest p cfg roman lossy :
  parse_page up dp input = Ok rest p -> Forall rectangular (page_tables p) ->
  page_to_vimwiki cfg roman lossy p = None <-> exists t, In t (page_tables p) /\ colon_only t.
Proof.
  intros E R. apply page_returns_rect. rewrite Forall_forall in *. intros t I. specialize (R t I).
  apply page_tables_nodes in I as [r I].
  destruct (parsed_table up dp input rest p r t E I) as (M & W & _). auto.
Qed.
Print Assumptions C51_rectangular_partial.
(** With short rows: a marker with a colon always panics when no text of its
    column comes before the first gap, and only then if the column has no gap
    above such a marker. *)
Theorem C51_gaps_partial up dp input rest p cfg roman lossy :
  parse_page up dp input = Ok rest p ->
  (forall t r c x a, In t (page_tables p) -> at_ t r c x -> l_val x = CAlign a -> a <> AlNone -> walked t r c) ->
  page_to_vimwiki cfg roman lossy p = None <->
  exists t r c x a, In t (page_tables p) /\ at_ t r c x /\ l_val x = CAlign a /\ a <> AlNone /\ blind_column t c.
Proof.
  intros E R. apply page_returns_walked. apply Forall_forall. intros t I. specialize (fun r c x a => R t r c x a I).
  apply page_tables_nodes in I as [r I].
  destruct (parsed_table up dp input rest p r t E I) as (M & W & _). auto.
Qed.
Print Assumptions C51_gaps_partial.
Theorem C51_blind_partial up dp input rest p cfg roman lossy t r c x a :
  parse_page up dp input = Ok rest p ->
  In t (page_tables p) -> at_ t r c x -> l_val x = CAlign a -> a <> AlNone -> blind_column t c ->
  page_to_vimwiki cfg roman lossy p = None.
Proof.
  intros E. apply page_panics_blind. apply Forall_forall. intros t' I. apply page_tables_nodes in I as [r' I].
  destruct (parsed_table up dp input rest p r' t' E I) as (M & W & _). auto.
Qed.
Print Assumptions C51_blind_partial.
(** A short row, and a column that is not blank and yet has no room. *)
Example C51_gaps_case :
  vw (vw_page (nl "|a|b|" ++ nl "|c|" ++ nl "|---|---|")) = Some (nl "| a | b |" ++ nl "| c |   |" ++ nl "|---|---|") /\
  vw (vw_page (nl "|a|" ++ nl "|:-|b|" ++ nl "|c|:-|")) = None.
Proof. split; vm_compute; reflexivity. Qed.
Example C51_case :
  vw (vw_page (nl "- a" ++ nl "  |x|" ++ nl "  |:-:|")) = Some (nl "- a" ++ nl "    | x |" ++ nl "    |:-:|") /\
  vw (vw_page (nl "- a" ++ nl "  |x|:-|")) = None.
Proof. split; vm_compute; reflexivity. Qed.

Theorem C51_refuted :
  exists input rest p, parse_page rfc_uri_parse ymd_parse input = Ok rest p /\
    page_to_vimwiki default_vw the_roman (fun s => s) p = None.
Proof.
  exists (nl "|a|:-|").
  eexists _, _. split; [vm_compute; reflexivity|]. vm_compute. reflexivity.
Qed.
Print Assumptions C51_refuted.

(** * C53 *)

(** Whatever operations are performed, the formatter ends, at the same
    indentation, with the text that was there and the text that was said,
    except for white space characters that may be left out. *)
Theorem C53_operations indent o st :
  valid_utf8 indent -> op_valid o -> valid_utf8 (v_content st) ->
  exists st' t, run_op indent o st = VOk st' /\ v_indent st' = v_indent st /\
    says indent (v_indent st) o t /\ thin (v_content st') (v_content st ++ t).
Proof. intros Vi V Vc. exact (op_thin_run indent Vi o V st Vc). Qed.
Print Assumptions C53_operations.

(** What [and_trim] does to texts written inside it: all of them without the
    white space around; when nothing is left the white space before it goes
    too. *)
Theorem C53_trimmed ss c n b : Forall valid_utf8 ss ->
  exists core out, and_trim (veach wr ss) (Vst c n b) = VOk (Vst out n false) /\
    trimmed (concat ss) core /\
    (core <> [] -> out = c ++ core) /\
    (core = [] -> exists w, c = out ++ w /\ blank w /\ ~ ends_white out).
Proof. exact (and_trim_exact ss c n b). Qed.
Print Assumptions C53_trimmed.

Example C53_case :
  run_op (bs "  ") (OpIndented [OpIndent; OpTrim [OpWrite (bs "  "); OpWrite (bs " a b "); OpWrite [xc2; xa0]]; OpWrite (bs " c")])
    (Vst (nl "x") 1 false) = VOk (Vst (nl "x" ++ bs "    a b c") 1 false) /\
  op_valid (OpIndented [OpIndent; OpTrim [OpWrite (bs "  "); OpWrite (bs " a b "); OpWrite [xc2; xa0]]; OpWrite (bs " c")]) /\
  and_trim (veach wr [bs " "; bs " "]) (Vst (bs "a ") 0 false) = VOk (Vst (bs "a") 0 false).
Proof.
  split; [vm_compute; reflexivity|]. split; [|vm_compute; reflexivity].
  cbn. repeat split.
  - exists [[x20]; [x20]]. repeat constructor.
  - exists [[x20]; [x61]; [x20]; [x62]; [x20]]. repeat constructor.
  - exists [[xc2; xa0]]. repeat constructor.
  - exists [[x20]; [x63]]. repeat constructor.
Qed.
