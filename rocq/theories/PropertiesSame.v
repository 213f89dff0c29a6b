(** What the output depends on: C75 (vimwiki) and C77 (HTML). *)
From Verif Require Import Base ModelSpan ModelComb ModelAst ModelTable ModelLink ModelInline ModelBlock
  ModelOracle ModelElem ModelPath ModelHtml ModelVimwiki ModelEq SpecDoc SpecEq ProofEq ProofEq2 ProofSame ProofFine ProofYield SampleDoc.
From Verif Require ProofSameHtml PropertiesRound PropertiesHtml.

Local Notation up0 := rfc_uri_parse.
Local Notation dp0 := ymd_parse.
Local Notation same := (fun s : str => s).
Local Notation a_roman := PropertiesRound.a_roman.
Local Notation read := PropertiesRound.read.
Local Notation shown := PropertiesRound.shown.
Local Notation the_html := PropertiesHtml.html_page.
Local Notation uri_id := (fun u : uri => u).

(** * What the parser returns *)

(** Maps have each key once and tables the counts of their cells, which the
    theorems of C35 and those below ask of pages. *)
Theorem C75_parsed_pages up dp s rest p : parse_page up dp s = Ok rest p -> ok_page p.
Proof. exact (parsed_ok up dp s rest p). Qed.
Print Assumptions C75_parsed_pages.

(** * C75 *)

(** Pages that say the same, wherever their parts stand in the source and in
    whatever order the maps are listed, are printed alike. *)
Theorem C75_vimwiki cfg roman lossy p q :
  ok_page p -> ok_page q -> full_content_of uri_id p = full_content_of uri_id q ->
  page_to_vimwiki cfg roman lossy p = page_to_vimwiki cfg roman lossy q.
Proof. exact (printed_same cfg roman lossy p q). Qed.
Print Assumptions C75_vimwiki.
(** The same text with other blank lines and with the attributes in another
    order: different regions, same output. *)
Definition doc_a : str := ln "{{{rust a=""1"" b=""2""" ++ ln "x" ++ ln "}}}" ++ ln "" ++ ln "* [ ] t {{i|d|k=""v"" l=""w""}}" ++ ln "" ++ ln "|a|b|".
Definition doc_b : str := ln "" ++ ln "{{{rust b=""2"" a=""1""" ++ ln "x" ++ ln "}}}" ++ ln "" ++ ln "* [ ] t {{i|d|l=""w"" k=""v""}}" ++ ln "" ++ ln "" ++ ln "|a|b|".
Example C75_case : read doc_a <> read doc_b /\ ok_page (read doc_a) /\ ok_page (read doc_b) /\ length (read doc_a) = 3 /\
  full_content_of uri_id (read doc_a) = full_content_of uri_id (read doc_b).
Proof.
  split; [vm_compute; discriminate|]. split; [|split; [|split; vm_compute; reflexivity]].
  - unfold read, PropertiesRound.read. destruct (parse_page up0 dp0 doc_a) eqn:E; try exact I. exact (C75_parsed_pages up0 dp0 doc_a _ _ E).
  - unfold read, PropertiesRound.read. destruct (parse_page up0 dp0 doc_b) eqn:E; try exact I. exact (C75_parsed_pages up0 dp0 doc_b _ _ E).
Qed.

(** Full statement: pages that are equal ([==]) are printed alike.  Proved for
    pages without definition lists, when URIs are equal only if they are the
    same.  Missing: definition lists, whose terms and definitions are compared
    by their displayed text; see the refutation. *)
Theorem C75_equal_partial uri_eqb cfg roman lossy p q :
  describes uri_eqb uri_id -> ok_page p -> ok_page q ->
  page_values (fun _ => False) p -> page_values (fun _ => False) q ->
  page_eqb uri_eqb p q = true ->
  page_to_vimwiki cfg roman lossy p = page_to_vimwiki cfg roman lossy q.
Proof.
  intros D P Q Vp Vq E. apply printed_same; auto. rewrite <- (content_full p Vp), <- (content_full q Vq). now apply (page_iff uri_eqb uri_id D p q P Q).
Qed.
Print Assumptions C75_equal_partial.
Example C75_equal_case : page_values (fun _ => False) (read doc_a) /\ page_values (fun _ => False) (read doc_b) /\
  page_eqb exact_eqb (read doc_a) (read doc_b) = true /\ describes exact_eqb uri_id.
Proof. split; [vm_compute; tauto|]. split; [vm_compute; tauto|]. split; [vm_compute; reflexivity|]. exact exact_describes. Qed.
(** Two equal pages with different texts and links to different pages. *)
Theorem C75_equal_refuted : exists s t,
  page_eqb exact_eqb (read s) (read t) = true /\ ok_page (read s) /\ ok_page (read t) /\
  shown (read s) = s /\ shown (read t) = t /\ s <> t /\ full_content_of uri_id (read s) <> full_content_of uri_id (read t).
Proof.
  exists (ln "[[a|x]]:: y"), (ln "[[b|x]]:: y"). split; [vm_compute; reflexivity|]. split; [vm_compute; tauto|]. split; [vm_compute; tauto|].
  split; [vm_compute; reflexivity|]. split; [vm_compute; reflexivity|]. split; [discriminate|vm_compute; discriminate].
Qed.
Print Assumptions C75_equal_refuted.

(** * C77 *)

(** Full statement: the HTML of a page depends only on what the page says.
    Proved for pages whose links and code blocks have at most one property or
    attribute.  Missing: several attributes, which are written in the order in
    which a hash map happens to list them; see the refutation. *)
Theorem C77_html_partial lower lossy highlight rel frag read_file today cfg p q :
  ok_page p -> ok_page q -> page_maps (fun m => length m <= 1) p -> page_maps (fun m => length m <= 1) q ->
  full_content_of uri_id p = full_content_of uri_id q ->
  to_html_page lower lossy highlight rel frag read_file today cfg p = to_html_page lower lossy highlight rel frag read_file today cfg q /\
  to_html_string lower lossy highlight rel frag cfg p = to_html_string lower lossy highlight rel frag cfg q.
Proof.
  intros P Q Mp Mq E. pose proof (ProofSameHtml.page_maps_weaken _ _ ProofSameHtml.single_listed) as W.
  exact (ProofSameHtml.html_same lower lossy highlight rel frag cfg read_file today p q P Q (W p Mp) (W q Mq) E).
Qed.
Print Assumptions C77_html_partial.
Definition doc_c : str := ln "= *H* =" ++ ln "{{{rust a=""1""" ++ ln "x" ++ ln "}}}" ++ ln "" ++ ln "* [ ] t {{i|d|k=""v""}}" ++ ln "" ++ ln "|a|b|" ++ ln "" ++ ln "T:: d".
Definition doc_d : str := ln "" ++ ln "" ++ doc_c.
Example C77_case : read doc_c <> read doc_d /\ full_content_of uri_id (read doc_c) = full_content_of uri_id (read doc_d) /\
  page_maps (fun m => length m <= 1) (read doc_c) /\ page_maps (fun m => length m <= 1) (read doc_d) /\
  ok_page (read doc_c) /\ ok_page (read doc_d) /\ length (read doc_c) = 5.
Proof.
  split; [vm_compute; discriminate|]. split; [vm_compute; reflexivity|].
  split; [vm_compute; repeat split; auto|]. split; [vm_compute; repeat split; auto|]. split; [|split; [|vm_compute; reflexivity]].
  - unfold read, PropertiesRound.read. destruct (parse_page up0 dp0 doc_c) eqn:E; try exact I. exact (C75_parsed_pages up0 dp0 doc_c _ _ E).
  - unfold read, PropertiesRound.read. destruct (parse_page up0 dp0 doc_d) eqn:E; try exact I. exact (C75_parsed_pages up0 dp0 doc_d _ _ E).
Qed.
(** A page as parsed and the same page with the attributes of its code block
    listed in the other order, as another run may have it. *)
Theorem C77_order_refuted : exists s p q,
  parse_page up0 dp0 s = Ok (Span s (length s) (length s) 0) p /\ ok_page p /\ ok_page q /\
  page_eqb exact_eqb p q = true /\ full_content_of uri_id p = full_content_of uri_id q /\
  page_to_vimwiki default_vw a_roman same p = page_to_vimwiki default_vw a_roman same q /\
  the_html p <> the_html q.
Proof.
  exists (ln "{{{a=""1"" b=""2""" ++ ln "x" ++ ln "}}}").
  exists [Loc (BCode (CodeBlock None [(bs "a", bs "1"); (bs "b", bs "2")] [bs "x"])) (Region 0 21 0)].
  exists [Loc (BCode (CodeBlock None [(bs "b", bs "2"); (bs "a", bs "1")] [bs "x"])) (Region 0 21 0)].
  split; [vm_compute; reflexivity|]. assert (K : forall a b : str * str, fst a <> fst b -> keyed [a; b]).
  { intros a b N. repeat constructor; cbn; intuition. }
  split; [split; [apply K; discriminate|exact I]|]. split; [split; [apply K; discriminate|exact I]|].
  split; [vm_compute; reflexivity|]. split; [vm_compute; reflexivity|]. split; [vm_compute; reflexivity|]. vm_compute. discriminate.
Qed.
Print Assumptions C77_order_refuted.
