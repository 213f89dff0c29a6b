(** The newline at the end of a text (C100). *)
From Verif Require Import Base ModelSpan ModelComb ModelAst ModelTable ModelLink ModelInline ModelBlock
  ModelOracle ModelElem ModelPath ModelHtml ModelVimwiki SpecDoc SpecSpan SpecEq SpecEnd SpecLines ProofSame ProofFine ProofYield ProofEnd5 ProofLines4 ProofEnd6 SampleDoc.
From Verif Require PropertiesRound PropertiesHtml PropertiesSame PropertiesLines.

Local Notation up0 := rfc_uri_parse.
Local Notation dp0 := ymd_parse.
Local Notation same := (fun u : uri => u).
Local Notation read := PropertiesRound.read.
Local Notation shown := PropertiesRound.shown.
Local Notation doc := PropertiesLines.doc_l.
(** Where a block begins. *)
Local Notation place x := (r_off (l_reg x)).

(** * C100 *)

(** A text that does not end its last line, and the text with a newline after
    it: both are read, as blocks that say the same and begin at the same
    places, or reading both panics. *)
Theorem C100_final_newline up dp t : unended t ->
  match parse_page up dp t, parse_page up dp (t ++ [b_nl]) with
  | Ok _ p, Ok _ q => full_content_of same p = full_content_of same q /\ map (fun x => place x) p = map (fun x => place x) q
  | Panic, Panic => True
  | _, _ => False
  end.
Proof. exact (newline_alike up dp t). Qed.
Print Assumptions C100_final_newline.
(** A document with most kinds of blocks and without its final newline; the
    last block is shorter by that newline. *)
Definition cut : str := firstn (length doc - 1) doc.
Lemma ends t x b : t = x ++ [b] -> b <> b_nl -> b <> b_cr -> unended t.
Proof. intros -> B1 B2 y c H. apply app_inj_tail in H as [_ <-]. auto. Qed.
Lemma cut_unended : unended cut.
Proof. apply (ends cut (firstn (length doc - 2) doc) x3a); [vm_compute; reflexivity|discriminate|discriminate]. Qed.
Example C100_case : unended cut /\ cut ++ [b_nl] = doc /\ length (read cut) = 11 /\ length (read doc) = 11 /\
  map l_reg (firstn 10 (read cut)) = map l_reg (firstn 10 (read doc)) /\ map l_reg (read cut) <> map l_reg (read doc).
Proof.
  split; [exact cut_unended|]. split; [vm_compute; reflexivity|]. split; [vm_compute; reflexivity|]. split; [vm_compute; reflexivity|].
  split; [vm_compute; reflexivity|vm_compute; discriminate].
Qed.
(** Texts ending with a fence, a row, an item and a definition, and texts
    ending where a fence or a comment is still open. *)
Definition fence : str := ln "{{{" ++ ln "x" ++ bs "}}}".
Definition a_row : str := ln "|a|" ++ bs "|-|".
Definition item : str := ln "* a" ++ bs "  1. b".
Definition defs : str := ln "t::" ++ bs ":: d".
Definition opened : str := ln "a" ++ ln "{{{" ++ bs "x".
Definition comment : str := ln "a %%+ b" ++ bs "c".
Example C100_ends : Forall unended [fence; a_row; item; defs; opened; comment; []] /\
  map (fun t => length (read t)) [fence; a_row; item; defs; opened; comment; []] = [1; 1; 1; 1; 1; 1; 0] /\
  (exists c, map l_val (read fence) = [BCode c]) /\ (exists c, map l_val (read a_row) = [BTable c]) /\
  (exists c, map l_val (read item) = [BList c]) /\ (exists c, map l_val (read defs) = [BDefList c]) /\
  (exists c, map l_val (read opened) = [BParagraph c]).
Proof.
  split.
  { repeat apply Forall_cons; [| | | | | | |constructor].
    - apply (ends _ (ln "{{{" ++ ln "x" ++ bs "}}") x7d); [reflexivity|discriminate|discriminate].
    - apply (ends _ (ln "|a|" ++ bs "|-") x7c); [reflexivity|discriminate|discriminate].
    - apply (ends _ (ln "* a" ++ bs "  1. ") x62); [reflexivity|discriminate|discriminate].
    - apply (ends _ (ln "t::" ++ bs ":: ") x64); [reflexivity|discriminate|discriminate].
    - apply (ends _ (ln "a" ++ ln "{{{") x78); [reflexivity|discriminate|discriminate].
    - apply (ends _ (ln "a %%+ b") x63); [reflexivity|discriminate|discriminate].
    - intros x b H. symmetry in H. now apply app_eq_nil in H. }
  split; [vm_compute; reflexivity|]. repeat split; eexists; vm_compute; reflexivity.
Qed.

(** The same for the line end of Windows, in texts where carriage returns stand
    only before newlines (C98). *)
Theorem C100_windows up dp t : unended t -> ~ In b_cr (unix t) ->
  match parse_page up dp t, parse_page up dp (t ++ [b_cr; b_nl]) with
  | Ok _ p, Ok _ q => full_content_of same p = full_content_of same q
  | Panic, Panic => True
  | _, _ => False
  end.
Proof.
  intros U N. pose proof (newline_alike up dp t U) as A. pose proof (lines_alike up dp _ _ (same_end t U N)) as L.
  destruct (parse_page up dp t), (parse_page up dp (t ++ [b_nl])), (parse_page up dp (t ++ [b_cr; b_nl])); try contradiction; auto.
  destruct A as [A _], L as [L _]. now rewrite A.
Qed.
Print Assumptions C100_windows.
Definition cut_w : str := firstn (length (windows doc) - 2) (windows doc).
Example C100_windows_case : unended cut_w /\ ~ In b_cr (unix cut_w) /\ (cut_w ++ [b_cr; b_nl] = windows doc) /\ cut_w <> cut /\
  (length (read cut_w) = 11) /\ (length (read (windows doc)) = 11).
Proof.
  split; [apply (ends _ (firstn (length (windows doc) - 3) (windows doc)) x3a); [vm_compute; reflexivity|discriminate|discriminate]|].
  split; [|split; [vm_compute; reflexivity|]; split; [vm_compute; discriminate|]; split; vm_compute; reflexivity].
  assert (E : unix cut_w = cut) by (vm_compute; reflexivity). rewrite E. unfold cut. intro I. apply PropertiesLines.no_cr.
  rewrite <- (firstn_skipn (length doc - 1) doc). apply in_or_app. now left.
Qed.

(** Both are printed alike, with the same HTML.  Attributes and properties are
    written in the order of a hash map (C77), so each code block and link may
    have at most one. *)
Theorem C100_formatted up dp cfg roman lossy t r r' p q : unended t ->
  parse_page up dp t = Ok r p -> parse_page up dp (t ++ [b_nl]) = Ok r' q ->
  page_to_vimwiki cfg roman lossy p = page_to_vimwiki cfg roman lossy q.
Proof.
  intros H P Q. pose proof (newline_alike up dp t H) as A. rewrite P, Q in A.
  exact (printed_same cfg roman lossy p q (parsed_ok up dp t r p P) (parsed_ok up dp (t ++ [b_nl]) r' q Q) (proj1 A)).
Qed.
Print Assumptions C100_formatted.
Theorem C100_html up dp lower lossy highlight rel frag read_file today cfg t r r' p q : unended t ->
  parse_page up dp t = Ok r p -> parse_page up dp (t ++ [b_nl]) = Ok r' q ->
  page_maps (fun m => length m <= 1) p -> page_maps (fun m => length m <= 1) q ->
  to_html_page lower lossy highlight rel frag read_file today cfg p = to_html_page lower lossy highlight rel frag read_file today cfg q /\
  to_html_string lower lossy highlight rel frag cfg p = to_html_string lower lossy highlight rel frag cfg q.
Proof.
  intros H P Q Mp Mq. pose proof (newline_alike up dp t H) as A. rewrite P, Q in A.
  exact (PropertiesSame.C77_html_partial lower lossy highlight rel frag read_file today cfg p q
           (parsed_ok up dp t r p P) (parsed_ok up dp (t ++ [b_nl]) r' q Q) Mp Mq (proj1 A)).
Qed.
Print Assumptions C100_html.
Example C100_formatted_case : unended cut /\ shown (read cut) = shown (read (cut ++ [b_nl])) /\ shown (read cut) <> [] /\
  parse_page up0 dp0 cut = Ok (Span cut (length cut) (length cut) 0) (read cut) /\
  page_maps (fun m => length m <= 1) (read cut) /\ page_maps (fun m => length m <= 1) (read (cut ++ [b_nl])).
Proof.
  split; [exact cut_unended|]. split; [vm_compute; reflexivity|]. split; [vm_compute; discriminate|]. split; [vm_compute; reflexivity|].
  split; vm_compute; repeat split; auto.
Qed.

(** After a carriage return the newline makes a line end of both, and the
    carriage return is no longer part of the text. *)
Example C100_return_case : ~ unended [x61; b_cr] /\
  full_content_of same (read [x61; b_cr]) <> full_content_of same (read ([x61; b_cr] ++ [b_nl])).
Proof. split; [intro H; now destruct (H [x61] b_cr eq_refl)|vm_compute; discriminate]. Qed.
