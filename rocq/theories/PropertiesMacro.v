(** The macros of vimwiki_macros: C80 - C85. *)
From Coq Require Import NArith Permutation Lia.
From Verif Require Import Base ModelSpan ModelComb ModelAst ModelTable ModelLink ModelInline ModelBlock ModelOracle ModelElem ModelVimwiki ModelEq ModelMacro
  SpecTree SpecVw SpecEq SpecMacro SampleDoc ProofYield ProofMacro ProofMacro2 ProofMacro3 ProofMacro4.
From Verif Require ProofEq2 ProofEq3 ProofEq4 ProofFine.
Local Open Scope nat_scope.

Notation up0 := rfc_uri_parse.
Notation dp0 := ymd_parse.
Definition quoted (s : str) : str := literal [] s [].
(** Values are texts; the only specification is the empty one. *)
Definition show0 (v : str) (sp : str) : option str := match sp with [] => Some v | _ => None end.
Definition src (w t : str) : src_line := SrcLine w t.

(** * C80 *)

(** The raw macros keep the lines between the blank ones as they are. *)
Theorem C80_raw pre post before mid after :
  literal_form pre post -> laid_out before mid after ->
  input_to_string true (literal pre (text_of (before ++ mid ++ after)) post) = MText (text_of mid).
Proof. intros F L. rewrite (input_literal true _ _ _ F). now apply arrange_raw. Qed.
Print Assumptions C80_raw.
(** The other macros take the least indentation of these lines from each. *)
Theorem C80_least pre post before mid after m :
  literal_form pre post -> laid_out before mid after -> least_indent mid m ->
  input_to_string false (literal pre (text_of (before ++ mid ++ after)) post) = MText (join [x0a] (map (cut m) mid)).
Proof. intros F L K. rewrite (input_literal false _ _ _ F). now apply arrange_cut. Qed.
Print Assumptions C80_least.
(** Full statement: the indentation that the lines with content share is taken
    from every line, as with indoc.  Proved when the blank lines among them are
    indented as much.  Missing: shorter blank lines between lines with content;
    see [C80_refuted]. *)
Theorem C80_shared_partial pre post before mid after m :
  literal_form pre post -> laid_out before mid after ->
  (forall l, In l mid -> has_content l -> m <= length (sl_blanks l)) ->
  (exists l, In l mid /\ has_content l /\ m = length (sl_blanks l)) ->
  (forall l, In l mid -> sl_rest l = [] -> m <= length (sl_blanks l)) ->
  input_to_string false (literal pre (text_of (before ++ mid ++ after)) post) = MText (join [x0a] (map (cut m) mid)).
Proof.
  intros F L H1 (l & I & _ & E) H2. apply C80_least; auto. split; [|eauto].
  intros x Ix. destruct (sl_rest x) eqn:Ex; [now apply H2|]. apply H1; auto. unfold has_content. congruence.
Qed.
Print Assumptions C80_shared_partial.

Definition ex_before := [src [] []; src (bs "   ") []].
Definition ex_mid := [src (bs "    ") (bs "= Title ="); src (bs "    ") []; src (bs "      ") (bs "text")].
Definition ex_after := [src (bs "  ") []].
Lemma ascii_valid l : Forall (fun b => byte_n b < 128) l -> valid_utf8 l.
Proof.
  intro F. exists (map (fun b => [b]) l). split.
  - apply Forall_map. eapply Forall_impl; [|exact F]. intros b H. apply U1. split; [apply Nat.le_0_l|]. apply Nat.lt_succ_r. exact H.
  - induction l as [|b l IH]; [reflexivity|]. inversion F; subst. cbn [map concat app]. f_equal. auto.
Qed.
Definition plain_ascii (l : str) : bool := forallb (fun b => (byte_n b <? 128) && negb (beqb b x0a) && negb (beqb b x0d)) l.
Definition blank_byte (b : byte) : bool := beqb b x20 || beqb b x09.
Definition line_okb (l : src_line) : bool :=
  forallb blank_byte (sl_blanks l) && plain_ascii (sl_rest l) &&
  match sl_rest l with [] => true | b :: _ => (33 <=? byte_n b) end.
Lemma line_okb_ok l : line_okb l = true -> line_ok l.
Proof.
  unfold line_okb. rewrite !andb_true_iff. intros [[B P] S1]. unfold plain_ascii in P. rewrite forallb_forall in P.
  assert (P' : forall b, In b (sl_rest l) -> byte_n b < 128 /\ b <> x0a /\ b <> x0d).
  { intros b I. apply P in I. rewrite !andb_true_iff, Nat.ltb_lt, !negb_true_iff in I. destruct I as [[I1 I2] I3]. split; [exact I1|].
    split; intros ->; discriminate. }
  split; [|split; [|split; [|split]]].
  - apply Forall_forall. rewrite forallb_forall in B. intros b I. apply B in I. unfold blank_byte in I. apply orb_true_iff in I as [I|I]; apply beqb_eq in I; auto.
  - apply ascii_valid, Forall_forall. intros b I. now apply P'.
  - destruct (sl_rest l) as [|b r]; [intros (w & r & W & E); symmetry in E; apply app_eq_nil in E as [-> _]; exact (ProofWhite.white_ne [] W eq_refl)|].
    apply ascii_no_white_start; [apply P'; now left|]. intro W. apply Nat.leb_le in S1. unfold white_char, white_chars in W. cbn in W.
    repeat destruct W as [W|W]; try discriminate; try contradiction; injection W as <-; vm_compute in S1; lia.
  - intro I. now apply P' in I.
  - intro I. now apply P' in I.
Qed.
Example C80_case : laid_out ex_before ex_mid ex_after /\ least_indent ex_mid 4 /\
  input_to_string false (quoted (text_of (ex_before ++ ex_mid ++ ex_after))) = MText (bs "= Title =" ++ [x0a] ++ [x0a] ++ bs "  text") /\
  input_to_string true (literal (bs "r#") (text_of (ex_before ++ ex_mid ++ ex_after)) (bs "#")) =
    MText (bs "    = Title =" ++ [x0a] ++ bs "    " ++ [x0a] ++ bs "      text").
Proof.
  split; [|split].
  - split; [apply Forall_forall; intros l I; apply line_okb_ok; revert l I; apply Forall_forall; repeat constructor|].
    split; [repeat constructor|]. split; [repeat constructor|]. split.
    + exists (src (bs "    ") (bs "= Title =")), (tl ex_mid). split; [reflexivity|discriminate].
    + exists (src (bs "      ") (bs "text")), (firstn 2 ex_mid). split; [reflexivity|discriminate].
  - split; [|exists (src (bs "    ") []); split; [right; left; reflexivity|reflexivity]].
    intros l [<-|[<-|[<-|[]]]]; apply Nat.leb_le; reflexivity.
  - split; vm_compute; reflexivity.
Qed.
(** An empty line between two paragraphs: nothing is taken away, and the
    header, still indented, becomes a centered one. *)
Definition ex_gap := [src (bs "  ") (bs "= Title ="); src [] []; src (bs "  ") (bs "text")].
Theorem C80_refuted :
  laid_out [] ex_gap [] /\ (forall l, In l ex_gap -> has_content l -> length (sl_blanks l) = 2) /\
  input_to_string false (quoted (text_of ex_gap)) = MText (text_of ex_gap) /\
  text_of ex_gap <> join [x0a] (map (cut 2) ex_gap) /\
  exists h r h' r' bs bs',
    macro_page up0 dp0 verbatim_str false (quoted (text_of ex_gap)) = MPage (Loc (BHeader h) r :: bs) /\
    macro_page up0 dp0 verbatim_str false (quoted (join [x0a] (map (cut 2) ex_gap))) = MPage (Loc (BHeader h') r' :: bs') /\
    h_centered h = true /\ h_centered h' = false.
Proof.
  split; [|split; [|split; [|split]]].
  - split; [apply Forall_forall; intros l I; apply line_okb_ok; revert l I; apply Forall_forall; repeat constructor|].
    split; [constructor|]. split; [constructor|]. split.
    + exists (src (bs "  ") (bs "= Title =")), (tl ex_gap). split; [reflexivity|discriminate].
    + exists (src (bs "  ") (bs "text")), (firstn 2 ex_gap). split; [reflexivity|discriminate].
  - intros l [<-|[<-|[<-|[]]]] H; try reflexivity. exfalso. now apply H.
  - vm_compute. reflexivity.
  - vm_compute. discriminate.
  - do 6 eexists. split; [vm_compute; reflexivity|]. split; [vm_compute; reflexivity|]. split; reflexivity.
Qed.
Print Assumptions C80_refuted.
(** The doc comment of the macros says that the raw ones use the literal as it
    is; they drop the blank lines around the text. *)
Theorem C80_as_it_is_refuted : exists s t,
  input_to_string true (quoted s) = MText t /\ s <> t.
Proof. exists ([x0a] ++ bs "a" ++ [x0a]), (bs "a"). split; [vm_compute; reflexivity|discriminate]. Qed.
Print Assumptions C80_as_it_is_refuted.
(** Lines indented with white space of different widths: the macro panics. *)
Theorem C80_panic_refuted : exists s, valid_utf8 s /\ input_to_string false (quoted s) = MPanic.
Proof.
  exists ([xe3; x80; x80] ++ bs "a" ++ [x0a] ++ [xc2; xa0] ++ bs "b"). split; [|vm_compute; reflexivity].
  exists [[xe3; x80; x80]; bs "a"; [x0a]; [xc2; xa0]; bs "b"]. split; [|reflexivity].
  repeat apply Forall_cons; [apply U3b|apply U1|apply U1|apply U2|apply U1|apply Forall_nil];
    split; apply Nat.leb_le; reflexivity.
Qed.
Print Assumptions C80_panic_refuted.
(** A literal of blank lines is refused; the empty literal is the empty page. *)
Theorem C80_blank pre post ls raw : literal_form pre post -> Forall line_ok ls -> Forall (fun l => sl_rest l = []) ls ->
  input_to_string raw (literal pre (text_of ls) post) = if match text_of ls with [] => true | _ => false end then MText [] else MError.
Proof. intros F O B. rewrite (input_literal raw _ _ _ F). now apply arrange_blank. Qed.
Print Assumptions C80_blank.

(** * C81 *)

(** What stands before and after the quotation marks does not matter. *)
Theorem C81_forms raw pre post pre' post' s :
  literal_form pre post -> literal_form pre' post' ->
  input_to_string raw (literal pre s post) = input_to_string raw (literal pre' s post').
Proof. intros F G. now rewrite (input_literal raw _ s _ F), (input_literal raw _ s _ G). Qed.
Print Assumptions C81_forms.
Example C81_forms_case : literal_form (bs "br##") (bs "##") /\
  input_to_string true (literal (bs "br##") (bs "say ""hi""") (bs "##")) = MText (bs "say ""hi""").
Proof. split; [exact (LfRawByte 2)|vm_compute; reflexivity]. Qed.
(** Full statement: a plain literal stands for the text it denotes in Rust.
    Proved for literals without backslashes.  Missing: escapes, which reach the
    parser as they are written; see [C81_refuted]. *)
Theorem C81_plain_partial raw s : ~ In x5c s -> input_to_string raw (quoted s) = arrange raw (unescaped s).
Proof.
  intro N. unfold quoted. rewrite (input_literal raw _ s _ LfPlain). f_equal. symmetry. clear raw.
  induction s as [|b s IH]; [reflexivity|]. assert (E : unescaped s = s) by (apply IH; intro I; apply N; now right).
  assert (Nb : b <> x5c) by (intros ->; apply N; now left).
  destruct b; try (cbn [unescaped]; now rewrite E).
Qed.
Print Assumptions C81_plain_partial.
Example C81_plain_case : ~ In x5c (bs "= T =") /\ input_to_string false (quoted (bs "= T =")) = MText (bs "= T =").
Proof. split; [cbn; intuition discriminate|vm_compute; reflexivity]. Qed.
(** The literal "- a\n- b" has two lines for Rust and one for the macro: one
    item instead of two. *)
Theorem C81_refuted : exists s i i' j j' r r',
  unescaped s = bs "- a" ++ [x0a] ++ bs "- b" /\
  macro_page up0 dp0 verbatim_str false (quoted s) = MPage [Loc (BList [i]) r] /\
  parse_page up0 dp0 (unescaped s) = Ok j' [Loc (BList [i'; j]) r'].
Proof.
  exists (bs "- a\n- b"). do 6 eexists. split; [vm_compute; reflexivity|]. split; [vm_compute; reflexivity|]. vm_compute. reflexivity.
Qed.
Print Assumptions C81_refuted.

(** * C82 *)

(** The value of a macro is the page that is parsed from its text at run time:
    the same elements at the same places, without their depths. *)
Theorem C82_value up dp raw token text rest p :
  input_to_string raw token = MText text -> parse_page up dp text = Ok rest p -> page_uris (prints_back up) p ->
  macro_page up dp verbatim_str raw token = MPage (flat p).
Proof.
  intros E P U. unfold macro_page. rewrite E, P.
  rewrite (steady_page verbatim_str up (fun t => t) p 0%N (parsed_ok up dp _ _ _ P)); [reflexivity| |exact U|reflexivity].
  apply page_any. intro m. apply Forall_forall. reflexivity.
Qed.
Print Assumptions C82_value.
(** The literal and the page, at once. *)
Theorem C82_literal up dp pre post before mid after m rest p :
  literal_form pre post -> laid_out before mid after -> least_indent mid m ->
  parse_page up dp (join [x0a] (map (cut m) mid)) = Ok rest p -> page_uris (prints_back up) p ->
  macro_page up dp verbatim_str false (literal pre (text_of (before ++ mid ++ after)) post) = MPage (flat p).
Proof. intros F L K P U. eapply (C82_value _ _ _ _ _ rest p); eauto. now apply C80_least. Qed.
Print Assumptions C82_literal.
(** It is equal ([==]) to it, and printed alike. *)
Theorem C82_equal uri_eqb cu up dp text rest p :
  describes uri_eqb cu -> parse_page up dp text = Ok rest p ->
  page_eqb uri_eqb (flat p) p = true /\ full_content_of cu (flat p) = full_content_of cu p.
Proof.
  intros D P. pose proof (parsed_ok up dp _ _ _ P) as O. split; [|apply flat_full_content].
  apply (ProofEq2.page_iff uri_eqb cu D (flat p) p (flat_ok p O) O). apply flat_content.
Qed.
Print Assumptions C82_equal.
Definition ex_text := text_of (ex_before ++ [src (bs "  ") (bs "[[a b#c|d]] *bold* {{x.png}}"); src (bs "  ") (bs "- |i|"); src (bs "    ") (bs "- j")] ++ ex_after).
Example C82_case : exists p rest,
  parse_page up0 dp0 (bs "[[a b#c|d]] *bold* {{x.png}}" ++ [x0a] ++ bs "- |i|" ++ [x0a] ++ bs "  - j") = Ok rest p /\
  page_uris (prints_back up0) p /\ length p = 2 /\
  macro_page up0 dp0 verbatim_str false (quoted ex_text) = MPage (flat p).
Proof.
  do 2 eexists. split; [vm_compute; reflexivity|]. split; [vm_compute; tauto|]. split; vm_compute; reflexivity.
Qed.
(** Strictly equal it is not: the depths are lost. *)
Theorem C82_strict_refuted : exists text rest p,
  parse_page up0 dp0 text = Ok rest p /\ page_uris (prints_back up0) p /\
  macro_page up0 dp0 verbatim_str true (quoted text) = MPage (flat p) /\
  page_strict ProofFine.exact_eqb (flat p) p = false.
Proof.
  exists (bs "= a ="). do 2 eexists. split; [vm_compute; reflexivity|]. split; [vm_compute; tauto|]. split; vm_compute; reflexivity.
Qed.
Print Assumptions C82_strict_refuted.

(** * C83 *)

(** Full statement: the format macros put the arguments into a text as
    [format!] does.  Proved for texts made of placeholders and of text without
    braces: every placeholder stands for the argument it asks for, the text
    stays, and a missing argument is an error.  Missing: doubled braces; see
    [C83_refuted]. *)
Theorem C83_filled_partial {V} (args : list V) names show c ps :
  (N.of_nat (length args) <= usize_bound)%N -> Forall piece_ok ps ->
  format_str args names show (format_src ps) c =
  match fill args names show c ps with
  | Some t => Some ((c + nexts ps)%N, t)
  | None => None
  end.
Proof. intros L F. now apply format_str_run. Qed.
Print Assumptions C83_filled_partial.
Definition ex_pieces := [FText (bs "a "); FAt 1 None; FText (bs ", "); FNext None; FNamed (bs "n_1") None; FNext None; FText (bs "!")].
Example C83_case : Forall piece_ok ex_pieces /\ format_src ex_pieces = bs "a {1}, {}{n_1}{}!" /\
  format_str [bs "zero"; bs "one"] [(bs "n_1", bs "N")] show0 (bs "a {1}, {}{n_1}{}!") 0%N = Some (2%N, bs "a one, zeroNone!") /\
  format_str [bs "zero"] [] show0 (bs "a {1}") 0%N = None.
Proof.
  split; [|split; [reflexivity|split; vm_compute; reflexivity]].
  assert (W : word (bs "n_1")).
  { split; [|split; [discriminate|]].
    - constructor; [left; split; apply Nat.leb_le; reflexivity|]. constructor; [right; right; right; reflexivity|].
      constructor; [right; right; left; split; apply Nat.leb_le; reflexivity|constructor].
    - exists x6e, (bs "_1"). split; [reflexivity|]. intros [_ H]. apply Nat.leb_le in H. discriminate. }
  assert (T : forall s, forallb (fun b => negb (beqb b x7b || beqb b x7d)) s = true -> no_braces s).
  { intros s H. rewrite forallb_forall in H. split; intro I; apply H in I; discriminate. }
  unfold ex_pieces. repeat (apply Forall_cons); [..|apply Forall_nil]; cbn [piece_ok spec_ok]; auto; try (apply T; reflexivity).
  split; [reflexivity|exact I].
Qed.
(** [format!] takes doubled braces for braces, the macros do not compile. *)
Theorem C83_refuted : exists s t,
  std_format show0 (length s) [] [] 0 s = Some t /\ t = bs "{}" /\ format_str [] [] show0 s 0%N = None.
Proof. exists (bs "{{}}"), (bs "{}"). split; [vm_compute; reflexivity|]. split; [reflexivity|]. vm_compute. reflexivity. Qed.
Print Assumptions C83_refuted.

(** * C84 *)

(** Whatever the arguments, the page has the elements of the parsed page, at
    the same places: an argument is text, its markup is not read. *)
Theorem C84_frame up dp {V} (args : list V) names show raw token text rest p v :
  (N.of_nat (length args) <= usize_bound)%N ->
  input_to_string raw token = MText text -> parse_page up dp text = Ok rest p ->
  page_uris (prints_back up) p -> plain_keys p ->
  macro_page up dp (format_str args names show) raw token = MPage v -> frame v = frame p.
Proof.
  intros L E P U K M. unfold macro_page in M. rewrite E, P in M.
  pose proof (good_page (format_str args names show) up p (parsed_ok up dp _ _ _ P) (plain_fixed args names show L p K) U 0%N) as H.
  destruct (g_each (format_str args names show) (page_texts p) 0%N) as [[n us]|].
  - destruct H as (y & Ey & _ & F). rewrite Ey in M. injection M as <-. exact F.
  - rewrite H in M. discriminate.
Qed.
Print Assumptions C84_frame.
(** Full statement: the macro succeeds exactly when every argument is there,
    and the texts of the page are the texts of the literal with the arguments
    in place; empty placeholders take the arguments in the order of the texts.
    Proved when the texts of the page are format strings as in
    [C83_filled_partial].  Missing: other braces in texts ([C83_refuted]) and
    braces in the keys of properties and attributes; also, the texts of tables
    and attributes are in the order of the hash map ([C85_refuted]). *)
Theorem C84_texts_partial up dp {V} (args : list V) names show raw token text rest p pss :
  (N.of_nat (length args) <= usize_bound)%N ->
  input_to_string raw token = MText text -> parse_page up dp text = Ok rest p ->
  page_uris (prints_back up) p -> plain_keys p ->
  page_texts p = map format_src pss -> Forall (Forall piece_ok) pss ->
  match fill_all args names show 0%N pss with
  | Some ts => exists v, macro_page up dp (format_str args names show) raw token = MPage v /\ page_texts v = ts /\ frame v = frame p
  | None => macro_page up dp (format_str args names show) raw token = MFails
  end.
Proof.
  intros L E P U K T F. unfold macro_page. rewrite E, P.
  pose proof (good_page (format_str args names show) up p (parsed_ok up dp _ _ _ P) (plain_fixed args names show L p K) U 0%N) as H.
  pose proof (g_each_format args names show L pss 0%N F) as G. rewrite T in H.
  destruct (fill_all args names show 0%N pss) as [ts|].
  - destruct G as [c' G]. rewrite G in H. destruct H as (y & Ey & H). exists y. rewrite Ey. auto.
  - rewrite G in H. now rewrite H.
Qed.
Print Assumptions C84_texts_partial.
Definition ex_doc := bs "= {} =" ++ [x0a] ++ bs "- {} and {0}" ++ [x0a] ++ bs "{}:: {b}" ++ [x0a].
Example C84_case : exists rest p v,
  input_to_string true (quoted ex_doc) = MText (bs "= {} =" ++ [x0a] ++ bs "- {} and {0}" ++ [x0a] ++ bs "{}:: {b}") /\
  parse_page up0 dp0 (bs "= {} =" ++ [x0a] ++ bs "- {} and {0}" ++ [x0a] ++ bs "{}:: {b}") = Ok rest p /\
  page_uris (prints_back up0) p /\ plain_keys p /\
  page_texts p = map format_src [[FNext None]; [FNext None; FText (bs " and "); FAt 0 None]; [FNext None]; [FNamed (bs "b") None]] /\
  macro_page up0 dp0 (format_str [bs "*one*"; bs "two"; bs "three"] [(bs "b", bs "four")] show0) true (quoted ex_doc) = MPage v /\
  page_texts v = [bs "*one*"; bs "two and *one*"; bs "three"; bs "four"].
Proof.
  do 3 eexists. split; [vm_compute; reflexivity|]. split; [vm_compute; reflexivity|]. split; [vm_compute; tauto|]. split; [vm_compute; tauto|].
  split; [vm_compute; reflexivity|]. split; [vm_compute; reflexivity|]. vm_compute. reflexivity.
Qed.

(** * C85 *)

Section Numbered.
Context {V : Type}.
Variable args : list V.
Variable names : list (str * V).
Variable show : V -> str -> option str.
(** The text asks for its arguments by number or by name, and they are there. *)
Definition numbered_text (t : str) : Prop :=
  exists ps, t = format_src ps /\ Forall piece_ok ps /\ nexts ps = 0%N /\ fill args names show 0%N ps <> None.
End Numbered.
(** Full statement: the value of a format macro is determined by its literal
    and arguments.  The order in which a hash map yields table cells, link
    properties and code attributes is not: [p] and [p'] are the same page with
    two such orders.  Proved when the placeholders are numbered or named.
    Missing: empty placeholders; see [C85_refuted]. *)
Theorem C85_numbered_partial up cu {V} (args : list V) names show p p' :
  (N.of_nat (length args) <= usize_bound)%N ->
  ok_page p -> ok_page p' -> page_uris (prints_back up) p -> page_uris (prints_back up) p' -> plain_keys p -> plain_keys p' ->
  (forall t, In t (page_texts p) \/ In t (page_texts p') -> numbered_text args names show t) ->
  full_content_of cu p = full_content_of cu p' ->
  exists v v', g_page (format_str args names show) up p 0%N = Some (0%N, v) /\
    g_page (format_str args names show) up p' 0%N = Some (0%N, v') /\ full_content_of cu v = full_content_of cu v'.
Proof.
  intros L O O' U U' K K' T C.
  set (ft := fun t => match format_str args names show t 0%N with Some (_, y) => y | None => [] end).
  assert (S1 : forall m, Forall (fun kv => no_braces (fst kv)) m -> same_keys ft m).
  { intros m H. eapply Forall_impl; [|exact H]. intros kv N. unfold ft. now rewrite (format_str_plain args names show L _ _ N). }
  assert (M : page_maps (same_keys ft) p) by (revert K; now apply page_maps_impl).
  assert (M' : page_maps (same_keys ft) p') by (revert K'; now apply page_maps_impl).
  assert (Q : forall t n, numbered_text args names show t -> format_str args names show t n = Some (n, ft t)).
  { intros t n (ps & -> & F & Z & N). unfold ft. rewrite !(format_str_run args names show L) by exact F. rewrite Z, !N.add_0_r.
    assert (X : fill args names show n ps = fill args names show 0%N ps).
    { clear - Z. induction ps as [|x ps IH]; [reflexivity|]. destruct x; cbn [nexts fill] in *; try (now rewrite IH). lia. }
    rewrite X. destruct (fill args names show 0%N ps); [reflexivity|contradiction]. }
  exists (m_page ft shallow p), (m_page ft shallow p'). split; [|split].
  - apply steady_page; auto.
  - apply steady_page; auto.
  - rewrite !full_content_m by auto. now rewrite C.
Qed.
Print Assumptions C85_numbered_partial.
(** Two orders of the cells of a table. *)
Definition other_order (p : page) : page :=
  map (fun x => match l_val x with
                | BTable t => Loc (BTable (Table (rev (t_cells t)) (t_row_cnt t) (t_col_cnt t) (t_centered t))) (l_reg x)
                | _ => x
                end) p.
Lemma reorder_ok p : ok_page p -> ok_page (other_order p).
Proof.
  intro O. apply all_forall, Forall_map. apply all_forall in O. eapply Forall_impl; [|exact O]. intros [b r]. cbn [l_val].
  destruct b; auto. intros (K & [C1 C2] & F). cbn [l_val ok_block]. split; [|split].
  - unfold keyed in *. cbn [t_cells]. rewrite map_rev. apply NoDup_rev, K.
  - split; intro n; cbn [t_cells t_row_cnt t_col_cnt]; [rewrite C1|rewrite C2]; split; intros H k x I; apply (H k x); now apply in_rev in I || (apply in_rev; rewrite rev_involutive).
  - cbn [t_cells]. apply all_forall, Forall_rev. now apply all_forall.
Qed.
Definition page_of (s : str) : page := match parse_page up0 dp0 s with Ok _ p => p | _ => [] end.
Lemma page_of_ok s : ok_page (page_of s).
Proof. unfold page_of. destruct (parse_page up0 dp0 s) as [r p| | |] eqn:E; try exact I. exact (parsed_ok up0 dp0 _ _ _ E). Qed.
Example C85_case :
  let p := page_of (bs "|{0}|{1}|" ++ [x0a]) in
  ok_page p /\ ok_page (other_order p) /\ p <> other_order p /\
  full_content_of (fun u => u) p = full_content_of (fun u => u) (other_order p) /\
  page_texts p = [bs "{0}"; bs "{1}"] /\ numbered_text [bs "a"; bs "b"] [] show0 (bs "{1}") /\
  exists v v', g_page (format_str [bs "a"; bs "b"] [] show0) up0 p 0%N = Some (0%N, v) /\
    g_page (format_str [bs "a"; bs "b"] [] show0) up0 (other_order p) 0%N = Some (0%N, v') /\
    full_content_of (fun u => u) v = full_content_of (fun u => u) v'.
Proof.
  intro p.
  assert (O : ok_page p) by apply page_of_ok.
  assert (O' : ok_page (other_order p)) by (apply reorder_ok, O).
  split; [exact O|]. split; [exact O'|]. split; [vm_compute; discriminate|]. split; [vm_compute; reflexivity|]. split; [vm_compute; reflexivity|]. split.
  - exists [FAt 1 None]. split; [reflexivity|]. split; [repeat constructor|]. split; [reflexivity|]. vm_compute. discriminate.
  - do 2 eexists. split; [vm_compute; reflexivity|]. split; [vm_compute; reflexivity|]. vm_compute. reflexivity.
Qed.
(** With empty placeholders the order of the cells decides which argument goes
    where. *)
Theorem C85_refuted : exists p p' v v' n,
  parse_page up0 dp0 (bs "|{}|{}|" ++ [x0a]) = Ok n p /\ ok_page p' /\
  full_content_of (fun u => u) p = full_content_of (fun u => u) p' /\
  g_page (format_str [bs "a"; bs "b"] [] show0) up0 p 0%N = Some (2%N, v) /\
  g_page (format_str [bs "a"; bs "b"] [] show0) up0 p' 0%N = Some (2%N, v') /\
  full_content_of (fun u => u) v <> full_content_of (fun u => u) v'.
Proof.
  exists (page_of (bs "|{}|{}|" ++ [x0a])), (other_order (page_of (bs "|{}|{}|" ++ [x0a]))). do 3 eexists.
  split; [vm_compute; reflexivity|]. split; [apply reorder_ok; apply page_of_ok|].
  split; [vm_compute; reflexivity|]. split; [vm_compute; reflexivity|]. split; [vm_compute; reflexivity|]. vm_compute. discriminate.
Qed.
Print Assumptions C85_refuted.
