(** Printing in vimwiki syntax and reading back: C52, C76. *)
From Verif Require Import Base ModelSpan ModelComb ModelAst ModelTable ModelLink ModelInline ModelBlock
  ModelOracle ModelElem ModelVimwiki SpecDoc SpecTree SpecEq SpecRound ProofClaims ProofRound ProofRound10 ProofRound11 ProofRound12 ProofSame ProofFine ProofYield SampleDoc.

Local Notation up0 := rfc_uri_parse.
Local Notation dp0 := ymd_parse.
Local Notation same := (fun s : str => s).
Definition a_roman (lower : bool) (n : Z) : str := repeat (if lower then x69 else x49) (Z.to_nat n).
Definition read (s : str) : page := match parse_page up0 dp0 s with Ok _ p => p | _ => [] end.
Definition shown (p : page) : str :=
  match page_to_vimwiki default_vw a_roman same p with Some t => t | None => [] end.

(** Full statement: printing a page with the default configuration and parsing
    the result gives a page with the same content ([content_of]: what equality
    of pages compares, that is with the values of definition lists taken as
    their text; [full_content_of]: with all of their content).  Proved for the pages of
    [page_fine]: headers, paragraphs, quotations, code and math blocks, dividers,
    placeholders, nested lists, definition lists and tables in which no text
    could be taken for another element.  Missing: comments over several lines,
    links described by a transclusion; and that the parser does not panic, which
    is known only of text without the three sites of C02.  For pages outside
    [page_fine] see the refutations below. *)
Theorem C52_page_partial up dp lossy roman cu p :
  schemes_spelled up -> page_fine up dp lossy roman p ->
  exists t, page_to_vimwiki default_vw roman lossy p = Some t /\
    (parse_page up dp t = Panic /\ (cut_link up t \/ bad_diary up t \/ split_space t) \/
     exists rest p', parse_page up dp t = Ok rest p' /\
       full_content_of cu p' = full_content_of cu p /\ content_of cu p' = content_of cu p).
Proof.
  intros S F. exists (page_src lossy roman p). split; [exact (page_printed up dp lossy roman S p F)|].
  pose proof (page_reads up dp lossy roman S p F) as G. unfold got in G.
  destruct (parse_page up dp (page_src lossy roman p)) as [rest p'| | |] eqn:E; try contradiction; [|left; split; [reflexivity|]; exact (claim_panic up dp _ E)].
  right. exists rest, p'. split; [reflexivity|]. split; [apply (same_page cu), G|]. apply content_same, same_page, G.
Qed.
Print Assumptions C52_page_partial.

(** The stand-in for the URI parser spells schemes. *)
Lemma rfc_spelled : schemes_spelled rfc_uri_parse.
Proof.
  intros t u s E Es _. unfold rfc_uri_parse in E. destruct (parse_scheme t) as [sc r0] eqn:P.
  assert (Q : u_scheme u = sc).
  { clear P. repeat match type of E with (let (_, _) := ?x in _) = _ => destruct x end.
    cbv zeta in E. match type of E with (if ?x then _ else _) = _ => destruct x end; [injection E as <-; reflexivity|discriminate]. }
  rewrite Q in Es. subst sc. unfold parse_scheme in P. unfold cut in P.
  destruct (find_pos _ t) as [i|] eqn:Ei.
  - destruct (skipn i t) as [|b r'] eqn:Er; [discriminate|]. destruct (beqb b x3a && scheme_ok (firstn i t)) eqn:B; [|discriminate].
    apply andb_true_iff in B as [B _]. apply beqb_eq in B. subst b. injection P as <- <-. exists (firstn i t), r'.
    split; [|reflexivity]. change (bs ":" ++ r') with (x3a :: r'). rewrite <- Er. symmetry. apply firstn_skipn.
  - discriminate.
Qed.
Definition fine_doc : str :=
  ln "= Head *bold* =" ++ ln "" ++ ln "some _it [[a b#c|d]] x_ text :tag:" ++
  ln "more `code` TODO http://a.b/c %% remark" ++ ln "" ++ ln "> quoted" ++ ln "> lines" ++ ln "" ++
  ln "{{{rust k=""v""" ++ ln "  x" ++ ln "}}}" ++ ln "" ++ ln "----" ++ ln "" ++
  ln "{{$%align%" ++ ln "y" ++ ln "}}$" ++ ln "" ++ ln "%title My page" ++ ln "" ++
  ln "[[diary:2021-03-05#x|today]] [[wiki1:p]] [[wn.My:p]] {{img.png|alt}} $x^2$" ++ ln "" ++
  ln "- [X] one *b*" ++ ln "    and a line" ++ ln "    i) deep" ++ ln "        {{{rust" ++ ln "         x" ++ ln "        }}}" ++ ln "    ii) > said" ++
  ln "    last" ++ ln "- two" ++ ln "    {{$" ++ ln "    y" ++ ln "    }}$" ++ ln "    Term:: a *d*" ++ ln "    :: b" ++
  ln "    | p | q *r* |" ++ ln "    | > | s     |" ++ ln "" ++ ln "1. A" ++ ln "2. B" ++ ln "" ++
  ln "One *x*:: first" ++ ln "Two:: second" ++ ln ":: and `more`" ++ ln "" ++
  ln "    | Name  | [[a b]] | x   |" ++ ln "    |:------|--------:|:---:|" ++ ln "    | \/    | `cde`   | $y$ |".
Example C52_case : page_fine up0 dp0 same a_roman (read fine_doc) /\ length (read fine_doc) = 12 /\
  shown (read fine_doc) = fine_doc.
Proof. split; [apply page_checked; vm_compute; reflexivity|]. split; vm_compute; reflexivity. Qed.

(** Empty lines of a quotation are printed without the blank that makes them
    part of it. *)
Theorem C52_quote_refuted : exists p, read (shown p) <> [] /\ content_of (fun u => u) (read (shown p)) <> content_of (fun u => u) p /\
  exists s, read s = p.
Proof.
  exists (read (ln "> a" ++ ln "" ++ ln "> b")). split; [vm_compute; discriminate|]. split; [vm_compute; discriminate|]. eexists. reflexivity.
Qed.
Print Assumptions C52_quote_refuted.
(** Cells are printed with blanks around them, which are read as part of them. *)
Theorem C52_cell_refuted : exists p, read (shown p) <> [] /\ content_of (fun u => u) (read (shown p)) <> content_of (fun u => u) p /\
  exists s, read s = p.
Proof.
  exists (read (ln "|a|")). split; [vm_compute; discriminate|]. split; [vm_compute; discriminate|]. eexists. reflexivity.
Qed.
Print Assumptions C52_cell_refuted.

(** The lines of a code block that begins an item are printed with an
    indentation that is then read as part of them. *)
Theorem C52_item_refuted : exists p, read (shown p) <> [] /\ content_of (fun u => u) (read (shown p)) <> content_of (fun u => u) p /\
  exists s, read s = p.
Proof.
  exists (read (ln "- {{{" ++ ln "    x" ++ ln "    }}}")). split; [vm_compute; discriminate|]. split; [vm_compute; discriminate|]. eexists. reflexivity.
Qed.
Print Assumptions C52_item_refuted.
(** The seventy-ninth item of a lettered list is printed as "ca.", where the
    parser sees the roman digit "c" and gives up: the list ends. *)
Theorem C52_letters_refuted : exists p, length p = 1 /\ length (read (shown p)) = 3 /\ exists s, read s = p.
Proof.
  exists (read (concat (repeat (ln "a. x") 82))). split; [vm_compute; reflexivity|]. split; [vm_compute; reflexivity|]. eexists. reflexivity.
Qed.
Print Assumptions C52_letters_refuted.

(** * C76 *)

(** Full statement: the text of a formatted page is not changed by formatting
    it again.  Proved for the pages of [page_fine], with the proviso on panics
    of C52.  For other pages see the refutations below. *)
Theorem C76_stable_partial up dp lossy roman p :
  schemes_spelled up -> page_fine up dp lossy roman p ->
  exists t, page_to_vimwiki default_vw roman lossy p = Some t /\
    (parse_page up dp t = Panic /\ (cut_link up t \/ bad_diary up t \/ split_space t) \/
     exists rest p', parse_page up dp t = Ok rest p' /\ page_to_vimwiki default_vw roman lossy p' = Some t).
Proof.
  intros S F. destruct (C52_page_partial up dp lossy roman (fun u => u) p S F) as (t & E & H). exists t. split; [exact E|].
  destruct H as [H|(rest & p' & E' & H & _)]; [now left|]. right. exists rest, p'. split; [exact E'|]. rewrite <- E.
  exact (printed_same default_vw roman lossy p' p (parsed_ok up dp t rest p' E') (page_fine_ok up dp lossy roman p F) H).
Qed.
Print Assumptions C76_stable_partial.
Example C76_case : page_fine up0 dp0 same a_roman (read fine_doc) /\ shown (read (shown (read fine_doc))) = shown (read fine_doc).
Proof. split; [apply page_checked; vm_compute; reflexivity|]. vm_compute. reflexivity. Qed.

(** The code in the first block of an item moves to the right each time. *)
Theorem C76_code_refuted : exists s0 s1 s2 s3,
  s1 = shown (read s0) /\ s2 = shown (read s1) /\ s3 = shown (read s2) /\
  s1 = ln "- {{{" ++ ln "        x" ++ ln "    }}}" /\
  s2 = ln "- {{{" ++ ln "            x" ++ ln "    }}}" /\
  s3 = ln "- {{{" ++ ln "                x" ++ ln "    }}}".
Proof. exists (ln "- {{{" ++ ln "    x" ++ ln "    }}}"). do 3 eexists. repeat split; try reflexivity; vm_compute; reflexivity. Qed.
Print Assumptions C76_code_refuted.
(** A quotation with an empty line falls apart when it is formatted twice. *)
Theorem C76_quote_refuted : exists s, shown (read (shown (read s))) <> shown (read s) /\
  length (read s) = 1 /\ length (read (shown (read s))) = 3.
Proof. exists (ln "> a" ++ ln "> " ++ ln "> b"). split; [vm_compute; discriminate|]. split; vm_compute; reflexivity. Qed.
Print Assumptions C76_quote_refuted.
(** The target of a link is percent-decoded each time, so that the link comes
    to name another page. *)
Theorem C76_link_refuted : exists s,
  s = ln "[[a%2520b]]" /\ shown (read s) = ln "[[a%20b]]" /\ shown (read (shown (read s))) = ln "[[a b]]".
Proof. eexists. split; [reflexivity|]. split; vm_compute; reflexivity. Qed.
Print Assumptions C76_link_refuted.
