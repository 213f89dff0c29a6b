(** Claims C91 to C95: the JavaScript bindings. *)
From Verif Require Import Base ModelSpan ModelComb ModelAst ModelTable ModelLink ModelElem ModelBlock ModelOracle ModelJson ModelWasm
  SpecVw SpecRound SpecJson SpecWasm ProofElem2 ProofJson3 ProofWasm ProofWasm2 ProofWasm3.
From Verif Require ProofRound9 ProofRound11 ProofMacro.
From Coq Require Import ZArith Lia.

Definition ln (s : string) : str := bs s ++ [b_nl].

(** ** C91 *)
(** Full statement: the date of a placeholder is the date written, and a diary
    link made for a date is a link for that date.  Both are always false.  The
    date of a placeholder is late by the length of the month ... *)
Theorem C91_placeholder_refuted d n k : day_number d n -> real_date d -> month_length (d_year d) (d_month d) k ->
  (100 <= d_year d < 200000)%Z ->
  placeholder_js_date (PDate d) = Some (Some (n + Z.of_nat k)%Z) /\ placeholder_js_date (PDate d) <> Some (Some n).
Proof.
  intros D R M Y. rewrite (js_date_late d n k D R M Y). split; [reflexivity|]. intro E. injection E as E.
  destruct M; lia.
Qed.
Print Assumptions C91_placeholder_refuted.
(** (every real date has a number, so this speaks about every date) *)
Theorem C91_every_date d : real_date d -> exists n, day_number d n.
Proof. exact (real_number d). Qed.
Print Assumptions C91_every_date.
(** ... and a diary link for a date crashes in January and on days that the
    month before does not have, and otherwise is one month early. *)
Theorem C91_diary_refuted y m d : (0 <= y <= 262143)%Z -> real_date (Date y m d) ->
  diary_link_date y (m - 1) d <> Some (Date y m d) /\
  (diary_link_date y (m - 1) d = None <-> m = 1 \/ forall k, month_length y (m - 1) k -> k < d) /\
  (forall r, diary_link_date y (m - 1) d = Some r -> r = Date y (m - 1) d /\ real_date r).
Proof.
  intros Y R. destruct (diary_given y m d Y R) as [A B]. split; [|split; assumption].
  intro E. apply B in E as [E _]. injection E as E. destruct R as (k & M & _). apply month_cases in M. cbn [d_month] in M. lia.
Qed.
Print Assumptions C91_diary_refuted.
Example C91_case : real_date (Date 2021 3 31) /\ month_length 2021 3 31 /\
  diary_link_date 2021 2 31 = None /\ diary_link_date 2021 2 28 = Some (Date 2021 2 28).
Proof.
  assert (M : month_length 2021 3 31) by (apply ml_31; cbn; tauto).
  repeat split; [exists 31; cbn; split; [exact M|lia]|exact M].
Qed.
(** What does hold: only a placeholder with a date has one. *)
Theorem C91_only_dates_partial p : placeholder_js_date p <> None <-> exists d, p = PDate d.
Proof. destruct p; cbn; split; try congruence; try (intros (? & ?); congruence); eauto. Qed.
Print Assumptions C91_only_dates_partial.

(** ** C92 *)
(** A description given from JavaScript is kept as text exactly if it is no URI
    reference. *)
Theorem C92_text_partial up uri desc l : js_wiki_link up uri desc = Some l ->
  exists u d, up uri = Some u /\ l = LWiki (LinkData u (Some d) None) /\ (d = DescText desc <-> up desc = None).
Proof.
  unfold js_wiki_link, js_description. destruct (up uri) as [u|]; [|discriminate]. intro H. injection H as <-.
  do 2 eexists. split; [reflexivity|]. split; [reflexivity|]. destruct (up desc); split; congruence.
Qed.
Print Assumptions C92_text_partial.
Example C92_case : exists l, js_wiki_link rfc_uri_parse (bs "page") (bs "two words") = Some l /\ rfc_uri_parse (bs "two words") = None.
Proof. eexists. split; vm_compute; reflexivity. Qed.
(** Full statement: it is always kept as text.  False for a single word, which
    becomes the address of an image shown in its place. *)
Theorem C92_refuted : exists desc u v, js_wiki_link rfc_uri_parse (bs "page") desc =
  Some (LWiki (LinkData u (Some (DescTransclusion (LinkData v None None))) None)).
Proof. exists (bs "hello"). do 2 eexists. vm_compute. reflexivity. Qed.
Print Assumptions C92_refuted.
(** The only error is an address that is no URI reference. *)
Theorem C92_error up uri desc : js_wiki_link up uri desc = None <-> up uri = None.
Proof. unfold js_wiki_link. destruct (up uri); cbn; split; congruence. Qed.
Print Assumptions C92_error.

(** ** C93 *)
(** A table made from a matrix of cells has each cell at its row and column. *)
Theorem C93_matrix_partial (rows : list (list (located cell))) ce r c :
  get_cell (js_table (map (fun row => Some (map Some row)) rows) ce) r c =
  match nth_error rows r with Some row => nth_error row c | None => None end.
Proof.
  rewrite js_table_cell, nth_error_map. destruct (nth_error rows r) as [row|]; [|reflexivity]. cbn [option_map].
  replace (row_cells (map Some row)) with row; [reflexivity|]. unfold row_cells. induction row as [|x row IH]; cbn; [reflexivity|now f_equal].
Qed.
Print Assumptions C93_matrix_partial.
Definition some_cell (s : string) : located cell := Loc (CContent [Loc (IText (bs s)) (Region 0 0 0)]) (Region 0 0 0).
Example C93_case : get_cell (js_table (map (fun row => Some (map Some row)) [[some_cell "a"; some_cell "b"]; [some_cell "c"]]) false) 1 0 =
  Some (some_cell "c").
Proof. vm_compute. reflexivity. Qed.
(** Full statement: an entry that is a cell is found at its row and column.
    False: an entry that is none is left out and the following ones move. *)
Theorem C93_refuted : exists rows r c x row, nth_error rows r = Some (Some row) /\ nth_error row c = Some (Some x) /\
  get_cell (js_table rows false) r c = None /\ get_cell (js_table rows false) r (c - 1) = Some x.
Proof.
  exists [Some [None; Some (some_cell "a")]], 0, 1, (some_cell "a"), [None; Some (some_cell "a")].
  repeat split; vm_compute; reflexivity.
Qed.
Print Assumptions C93_refuted.

(** ** C94 *)
(** A comment made from a text of several lines has these lines and this text. *)
Theorem C94_multi_line txt : comment_display (js_comment txt true) = txt /\
  (forall lines, lines <> [] -> Forall (fun l => ~ In b_nl l) lines -> txt = join [b_nl] lines ->
   js_line_cnt (js_comment txt true) = length lines /\
   forall i, js_line_at (js_comment txt true) i = nth_error lines i).
Proof.
  split; [exact (proj1 (proj2 (split_on_inv b_nl txt)))|]. intros lines N F ->. cbn [js_comment js_line_cnt js_line_at].
  rewrite split_on_join by assumption. auto.
Qed.
Print Assumptions C94_multi_line.
Theorem C94_line_partial txt : comment_display (js_comment txt false) = txt <-> ~ starts_white txt /\ ~ ends_white txt.
Proof.
  cbn [js_comment comment_display]. split; [apply ProofRound9.str_trim_id|]. intros [A B]. unfold str_trim.
  rewrite ProofRound11.trim_start_id by exact A. now apply ProofMacro.trim_end_id.
Qed.
Print Assumptions C94_line_partial.
Example C94_case : js_line_at (js_comment (ln "a" ++ bs "b") true) 1 = Some (bs "b") /\
  comment_display (js_comment (bs "a b") false) = bs "a b".
Proof. split; vm_compute; reflexivity. Qed.
(** Full statement: a comment gives back its text.  False for a line comment
    with white space at an end. *)
Theorem C94_refuted : exists txt, comment_display (js_comment txt false) <> txt.
Proof. exists (bs " x "). vm_compute. discriminate. Qed.
Print Assumptions C94_refuted.

(** The definitions of a term, asked for from JavaScript, are one row of the
    elements of all of them ... *)
Theorem C94_defs_partial d term : (js_get_def d term = None <-> def_get d term = None) /\
  (forall b c, def_get d term = Some b -> js_get_def d term = Some c ->
   (forall x, In x c <-> exists q, In q (l_val b) /\ In x (l_val q)) /\
   (forall q, l_val b = [q] -> c = l_val q)).
Proof.
  unfold js_get_def. set (g := def_get d term). clearbody g. split; [destruct g; split; (discriminate || reflexivity)|]. intros b c -> H. assert (E0 : concat (map l_val (l_val b)) = c) by (now injection H). subst c. clear H. split.
  - intro x. rewrite in_concat. split.
    + intros (l & I & J). apply in_map_iff in I as (q & <- & I). eauto.
    + intros (q & I & J). exists (l_val q). split; [now apply in_map|exact J].
  - intros q E. rewrite E. cbn [map concat]. apply app_nil_r.
Qed.
Print Assumptions C94_defs_partial.
(** ... so one cannot tell one definition from two. *)
Definition defs_of (ds : list container) : def_list :=
  [Loc (TermDefs (Loc [Loc (IText (bs "t")) (Region 0 0 0)] (Region 0 0 0)) (Loc (map (fun c => Loc c (Region 0 0 0)) ds) (Region 0 0 0))) (Region 0 0 0)].
Theorem C94_defs_refuted : exists d e, js_get_def d (bs "t") = js_get_def e (bs "t") /\ js_get_def d (bs "t") <> None /\
  option_map (fun b => length (l_val b)) (def_get d (bs "t")) <> option_map (fun b => length (l_val b)) (def_get e (bs "t")).
Proof.
  set (i (s : string) := Loc (IText (bs s)) (Region 0 0 0)).
  exists (defs_of [[i "a"%string]; [i "b"%string]]), (defs_of [[i "a"%string; i "b"%string]]). vm_compute. repeat split; discriminate.
Qed.
Print Assumptions C94_defs_refuted.

(** ** C95 *)
(** The value of a page is that of its JSON, unless the page has a definition
    list, where [to_js] crashes. *)
Theorem C95_partial uri_json date_str p : (forall u, whole (uri_json u) = true) ->
  (page_to_js uri_json date_str p = Some (j_page uri_json date_str p) <-> ~ page_defs p) /\
  (page_defs p -> page_to_js uri_json date_str p = None).
Proof.
  intro W. pose proof (page_whole uri_json date_str W p) as E. unfold page_to_js. cbv zeta.
  destruct (whole (j_page uri_json date_str p)) eqn:H; (split; [split|]); try discriminate; auto.
  - intros _. now apply E.
  - intro D. destruct (proj1 E eq_refl D).
  - intro N. apply E in N. discriminate.
Qed.
Print Assumptions C95_partial.
Example C95_case : exists rest p, parse_page rfc_uri_parse ymd_parse (ln "= a =" ++ ln "- b") = Ok rest p /\ p <> [] /\ ~ page_defs p.
Proof. do 2 eexists. split; [vm_compute; reflexivity|]. split; [discriminate|]. cbn. tauto. Qed.
(** Full statement: every page has a value.  False. *)
Theorem C95_refuted : exists text rest p, parse_page rfc_uri_parse ymd_parse text = Ok rest p /\
  forall uri_json date_str, (forall u, whole (uri_json u) = true) -> page_to_js uri_json date_str p = None.
Proof.
  exists (ln "term:: meaning"). do 2 eexists. split; [vm_compute; reflexivity|]. intros uj ds W. apply (C95_partial uj ds _ W).
  cbn. left. discriminate.
Qed.
Print Assumptions C95_refuted.

(** ** C96 *)
(** Making a table from JavaScript takes the cells away: it is safe exactly if
    no cell is given twice and none has been taken before, ... *)
Theorem C96_safe_partial h rows ce : (exists r, js_table_from h rows ce = Some r) <-> NoDup (objects rows) /\ Forall (alive h) (objects rows).
Proof.
  rewrite <- take_rows_iff. unfold js_table_from. destruct (take_rows rows h); cbn; split; intros (r & E); try discriminate; eauto.
Qed.
Print Assumptions C96_safe_partial.
(** ... the cells of the table are then the ones given, and these are gone
    afterwards while the others are untouched. *)
Theorem C96_taken_partial h rows ce t h' : js_table_from h rows ce = Some (t, h') ->
  (forall q c, In (q, c) h' <-> In (q, c) h /\ ~ In q (objects rows)) /\
  (forall r c row p, nth_error rows r = Some (Some row) -> (forall x, In x row -> x <> None) -> nth_error row c = Some (Some p) ->
   exists x, In (p, x) h /\ get_cell t r c = Some x).
Proof.
  unfold js_table_from. destruct (take_rows rows h) as [[cs h2]|] eqn:T; [|discriminate]. intro H. injection H as <- <-.
  apply take_rows_after in T as [A F]. split; [exact A|]. clear A. intros r c row p E N P.
  cbn [fst]. rewrite js_table_cell. revert r E. induction F as [|x y rows cs B F IH]; intros [|r] E; try discriminate.
  - injection E as ->. destruct y as [cells|]; [|destruct B]. cbn [nth_error]. clear - B N P. revert c P.
    induction B as [|u v row cells E F IH]; intros [|c] P; try discriminate.
    + injection P as ->. destruct v as [v|]; [|destruct E]. exists v. split; [exact E|reflexivity].
    + destruct u as [u|]; [|destruct (N None (or_introl eq_refl) eq_refl)]. destruct v as [v|]; [|destruct E].
      apply (IH (fun x I => N x (or_intror I)) c P).
  - cbn [nth_error] in *. apply IH. exact E.
Qed.
Print Assumptions C96_taken_partial.
Definition two_cells : heap := [(16, some_cell "a"); (32, some_cell "b")].
Example C96_case : exists r, js_table_from two_cells [Some [Some 16; Some 32]] false = Some r.
Proof. eexists. reflexivity. Qed.
(** Full statement: cells can be given to any number of tables at any number of
    places.  False: a second use, in the same table or a later one, reads
    memory that has been freed. *)
Theorem C96_twice_refuted : exists h p, alive h p /\ js_table_from h [Some [Some p; Some p]] false = None.
Proof. exists two_cells, 16. split; [eexists; now left|reflexivity]. Qed.
Print Assumptions C96_twice_refuted.
Theorem C96_again_refuted h p t h' ce : js_table_from h [Some [Some p]] ce = Some (t, h') ->
  forall rows ce', In p (objects rows) -> js_table_from h' rows ce' = None.
Proof.
  intros H rows ce' I. destruct (js_table_from h' rows ce') as [r|] eqn:E; [|reflexivity]. exfalso.
  assert (W : exists r, js_table_from h' rows ce' = Some r) by eauto. apply C96_safe_partial in W as [_ F].
  rewrite Forall_forall in F. destruct (F p I) as (c & J). apply C96_taken_partial in H as [A _]. apply A in J as [_ J].
  apply J. now left.
Qed.
Print Assumptions C96_again_refuted.
