(** Line ends (C98): a text reads the same whether its lines end with a newline
    or with a carriage return and a newline. *)
From Verif Require Import Base ModelSpan ModelComb ModelAst ModelTable ModelLink ModelInline ModelBlock
  ModelOracle ModelElem ModelPath ModelHtml ModelVimwiki SpecDoc SpecSpan SpecEq SpecLines ProofSame ProofFine ProofYield ProofLines4 SampleDoc.
From Verif Require ProofSameHtml PropertiesRound PropertiesHtml PropertiesSame.

Local Notation up0 := rfc_uri_parse.
Local Notation dp0 := ymd_parse.
Local Notation same := (fun s : str => s).
Local Notation a_roman := PropertiesRound.a_roman.
Local Notation read := PropertiesRound.read.
Local Notation shown := PropertiesRound.shown.

(** * C98 *)

(** Texts with the same lines, each ended one way or the other: either both are
    read, as blocks that say the same and begin on the same lines, or reading
    both panics. *)
Theorem C98_line_ends up dp s t : same_lines s t ->
  match parse_page up dp s, parse_page up dp t with
  | Ok _ p, Ok _ q => same_reading s t p q
  | Panic, Panic => True
  | _, _ => False
  end.
Proof. exact (lines_alike up dp s t). Qed.
Print Assumptions C98_line_ends.
(** A document with most kinds of blocks; [doc_m] ends every line but the
    second and third with a carriage return and a newline. *)
Definition doc_l : str :=
  ln "= *H* =" ++ ln "%title x y" ++ ln "T:: d" ++ ln ":: e" ++ ln "* [ ] t {{i|d|k=""v""}}" ++ ln "  more %%c" ++ ln "  1. n" ++
  ln "" ++ ln "|a|b|" ++ ln "|-|:-:|" ++ ln "|c|>|" ++ ln "{{{rust a=""1""" ++ ln "  x" ++ ln "}}}" ++ ln "" ++ ln "{{$" ++ ln "y" ++ ln "}}$" ++
  ln "> q" ++ ln "" ++ ln "    i" ++ ln "----" ++ ln "p [[l]]" ++ ln "r %%+ z" ++ ln "  +%% :a:b:".
Definition doc_m : str := firstn 19 doc_l ++ windows (skipn 19 doc_l).
Lemma no_cr : ~ In b_cr doc_l.
Proof.
  assert (H : existsb (beqb b_cr) doc_l = false) by (vm_compute; reflexivity). intro I. apply Bool.diff_true_false. rewrite <- H.
  symmetry. apply existsb_exists. exists b_cr. split; [exact I|reflexivity].
Qed.
Example C98_case : same_lines doc_l (windows doc_l) /\ same_lines doc_l doc_m /\ same_lines (windows doc_l) doc_m /\
  doc_m <> doc_l /\ doc_m <> windows doc_l /\ length (read doc_l) = 11 /\ length (read (windows doc_l)) = 11 /\
  map l_reg (read doc_l) <> map l_reg (read doc_m) /\
  map (lines_before doc_m) (read doc_m) = [0; 1; 2; 4; 8; 11; 15; 18; 20; 21; 22].
Proof.
  assert (N : ~ In b_cr doc_l) by exact no_cr.
  assert (U : unix doc_l = doc_l) by (vm_compute; reflexivity).
  assert (W : unix (windows doc_l) = doc_l) by (vm_compute; reflexivity).
  assert (M : unix doc_m = doc_l) by (vm_compute; reflexivity).
  unfold same_lines. rewrite U, W, M. split; [auto|]. split; [auto|]. split; [auto|].
  split; [vm_compute; discriminate|]. split; [vm_compute; discriminate|]. split; [vm_compute; reflexivity|]. split; [vm_compute; reflexivity|].
  split; [vm_compute; discriminate|vm_compute; reflexivity].
Qed.

(** In particular, a text without carriage returns may be given them. *)
Theorem C98_windows up dp t : ~ In b_cr t ->
  match parse_page up dp t, parse_page up dp (windows t) with
  | Ok _ p, Ok _ q => same_reading t (windows t) p q
  | Panic, Panic => True
  | _, _ => False
  end.
Proof. intro N. apply lines_alike. now apply windows_same. Qed.
Print Assumptions C98_windows.
Example C98_windows_case : ~ In b_cr doc_l /\ windows (ln "a" ++ ln "b") = [x61; x0d; x0a; x62; x0d; x0a].
Proof. split; [exact no_cr|reflexivity]. Qed.

(** The formatter prints the same text for both. *)
Theorem C98_formatted up dp cfg roman lossy s t r r' p q : same_lines s t ->
  parse_page up dp s = Ok r p -> parse_page up dp t = Ok r' q ->
  page_to_vimwiki cfg roman lossy p = page_to_vimwiki cfg roman lossy q.
Proof.
  intros H P Q. pose proof (lines_alike up dp s t H) as A. rewrite P, Q in A.
  exact (printed_same cfg roman lossy p q (parsed_ok up dp s r p P) (parsed_ok up dp t r' q Q) (proj1 A)).
Qed.
Print Assumptions C98_formatted.
Example C98_formatted_case : same_lines doc_l doc_m /\ shown (read doc_l) = shown (read doc_m) /\ shown (read doc_m) <> [] /\
  parse_page up0 dp0 doc_m = Ok (Span doc_m (length doc_m) (length doc_m) 0) (read doc_m).
Proof.
  split; [exact (proj1 (proj2 C98_case))|]. split; [vm_compute; reflexivity|]. split; [vm_compute; discriminate|]. vm_compute. reflexivity.
Qed.

(** The HTML is the same for both.  Attributes and properties are written in
    the order of a hash map (C77), so each code block and link may have at
    most one. *)
Theorem C98_html up dp lower lossy highlight rel frag read_file today cfg s t r r' p q : same_lines s t ->
  parse_page up dp s = Ok r p -> parse_page up dp t = Ok r' q ->
  page_maps (fun m => length m <= 1) p -> page_maps (fun m => length m <= 1) q ->
  to_html_page lower lossy highlight rel frag read_file today cfg p = to_html_page lower lossy highlight rel frag read_file today cfg q /\
  to_html_string lower lossy highlight rel frag cfg p = to_html_string lower lossy highlight rel frag cfg q.
Proof.
  intros H P Q Mp Mq. pose proof (lines_alike up dp s t H) as A. rewrite P, Q in A.
  exact (PropertiesSame.C77_html_partial lower lossy highlight rel frag read_file today cfg p q
           (parsed_ok up dp s r p P) (parsed_ok up dp t r' q Q) Mp Mq (proj1 A)).
Qed.
Print Assumptions C98_html.
Example C98_html_case : same_lines doc_l doc_m /\ page_maps (fun m => length m <= 1) (read doc_l) /\ page_maps (fun m => length m <= 1) (read doc_m).
Proof. split; [exact (proj1 (proj2 C98_case))|]. split; vm_compute; repeat split; auto. Qed.

(** A carriage return elsewhere is not a line end, and leaving it out changes
    the page: the header is one only with a newline behind it. *)
Example C98_lone_case : exists s t, s = bs "= a =" ++ [b_cr] ++ bs "b" /\ t = bs "= a =" ++ [b_nl] ++ bs "b" /\
  length (read s) = 1 /\ length (read t) = 2 /\
  unix (bs "a" ++ [b_cr; b_cr; b_nl]) = bs "a" ++ [b_cr; b_nl] /\
  full_content_of (fun u => u) (read (bs "a" ++ [b_cr; b_cr; b_nl])) <> full_content_of (fun u => u) (read (bs "a" ++ [b_cr; b_nl])).
Proof.
  eexists. eexists. split; [reflexivity|]. split; [reflexivity|].
  split; [vm_compute; reflexivity|]. split; [vm_compute; reflexivity|]. split; [vm_compute; reflexivity|vm_compute; discriminate].
Qed.
