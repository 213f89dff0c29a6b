(** Claims C89 and C90: parsing a text as one element, and choosing wikis on
    the command line. *)
From Verif Require Import Base ModelSpan ModelComb ModelAst ModelBlock ModelOracle ModelElem ModelCli ModelEntry SpecEntry ProofEntry.

Definition ln (s : string) : str := bs s ++ [b_nl].

(** ** C89 *)
(** A page whose first block starts with the text: parsing the text as a block
    gives that block ... *)
Theorem C89_first_block up dp text rest x p :
  parse_page up dp text = Ok rest (x :: p) -> r_off (l_reg x) = 0 -> parse_as_block up dp (Vimwiki text) = Got x.
Proof.
  intros H Z. destruct (first_block_of up dp text rest x p H Z) as [s E].
  unfold parse_as_block, from_language. now rewrite E.
Qed.
Print Assumptions C89_first_block.
(** ... and parsing it as the right kind of block gives it, too. *)
Theorem C89_kind up dp text rest x p :
  parse_page up dp text = Ok rest (x :: p) -> r_off (l_reg x) = 0 ->
  match l_val x with
  | BHeader h => parse_as_header up dp (Vimwiki text) = Got (Loc h (l_reg x))
  | BDefList d => parse_as_def_list up dp (Vimwiki text) = Got (Loc d (l_reg x))
  | BList l => parse_as_list up dp (Vimwiki text) = Got (Loc l (l_reg x))
  | BTable t => parse_as_table up dp (Vimwiki text) = Got (Loc t (l_reg x))
  | BCode c => parse_as_code (Vimwiki text) = Got (Loc c (l_reg x))
  | BMath m => parse_as_math (Vimwiki text) = Got (Loc m (l_reg x))
  | BBlockquote q => parse_as_blockquote (Vimwiki text) = Got (Loc q (l_reg x))
  | BDivider => parse_as_divider (Vimwiki text) = Got (Loc tt (l_reg x))
  | BPlaceholder l => parse_as_placeholder dp (Vimwiki text) = Got (Loc l (l_reg x))
  | BParagraph l => parse_as_paragraph up dp (Vimwiki text) = Got (Loc l (l_reg x))
  end.
Proof.
  intros H Z. destruct (first_block_of up dp text rest x p H Z) as [s E]. unfold top_level_block_element in E.
  apply alt_in in E as (q & I & E). cbn [In] in I.
  repeat (destruct I as [<-|I]; [apply pmap_of in E as ([v r] & E & <-);
    unfold parse_as_header, parse_as_def_list, parse_as_list, parse_as_table, parse_as_code, parse_as_math, parse_as_blockquote,
      parse_as_divider, parse_as_placeholder, parse_as_paragraph, from_language;
    cbn [lmap l_val l_reg]; try destruct v; rewrite E; reflexivity|]). destruct I.
Qed.
Print Assumptions C89_kind.
Definition two_blocks : str := ln "- one" ++ ln "- two" ++ ln "" ++ ln "text".
Example C89_case : exists rest x y, parse_page rfc_uri_parse ymd_parse two_blocks = Ok rest [x; y] /\ r_off (l_reg x) = 0 /\
  exists l, l_val x = BList l.
Proof. do 3 eexists. split; [vm_compute; reflexivity|]. split; [reflexivity|]. eexists. reflexivity. Qed.
(** The other way round, for a text that begins with something visible. *)
Theorem C89_block_is_first up dp text rest x p :
  starts_visible text -> parse_as_block up dp (Vimwiki text) = Got x -> parse_page up dp text = Ok rest p ->
  exists q, p = x :: q.
Proof.
  intros (b & r & E & N1 & N2 & N3) H. unfold parse_as_block, from_language in H.
  destruct (top_level_block_element up dp (span_of text)) as [s y| | |] eqn:T; try discriminate. injection H as ->.
  exact (block_first_of up dp text b r s x p rest E N1 N2 N3 T).
Qed.
Print Assumptions C89_block_is_first.
Example C89_visible_case : starts_visible two_blocks.
Proof. do 2 eexists. split; [reflexivity|]. repeat split; discriminate. Qed.
(** A text of another language is always an error. *)
Theorem C89_other_languages {A} (p : parser A) text :
  from_language p (Markdown text) = Failed /\ from_language p (Mediawiki text) = Failed.
Proof. split; reflexivity. Qed.
Print Assumptions C89_other_languages.
(** Full statement: whatever parses as a page with one block parses as that
    block, and what parses as a block has nothing else.  False: what follows is
    ignored, and an empty line before it is an error. *)
Theorem C89_rest_refuted : exists text rest x y,
  parse_page rfc_uri_parse ymd_parse text = Ok rest [x; y] /\ parse_as_block rfc_uri_parse ymd_parse (Vimwiki text) = Got x.
Proof.
  exists two_blocks. destruct C89_case as (rest & x & y & E & Z & _). exists rest, x, y. split; [exact E|].
  exact (C89_first_block _ _ _ _ _ _ E Z).
Qed.
Print Assumptions C89_rest_refuted.
Theorem C89_empty_line_refuted : exists text rest x,
  parse_page rfc_uri_parse ymd_parse text = Ok rest [x] /\ parse_as_block rfc_uri_parse ymd_parse (Vimwiki text) = Failed.
Proof. exists (ln "" ++ ln "= a ="). do 2 eexists. split; [vm_compute; reflexivity|]. vm_compute. reflexivity. Qed.
Print Assumptions C89_empty_line_refuted.
(** A kind-specific parser does not ask whether the page would see it so. *)
Theorem C89_kind_refuted : exists text q x rest p, parse_as_blockquote (Vimwiki text) = Got q /\
  parse_page rfc_uri_parse ymd_parse text = Ok rest (x :: p) /\ (exists l, l_val x = BList l).
Proof. exists (bs "    - a"). do 4 eexists. split; [vm_compute; reflexivity|]. split; [vm_compute; reflexivity|]. eexists. reflexivity. Qed.
Print Assumptions C89_kind_refuted.

(** ** C90 *)
(** --include with a number selects the wiki at that place and no other, ... *)
Theorem C90_number s n i name : written_number s n ->
  included [index_or_name_of s] i name = true <-> N.of_nat i = n.
Proof.
  intro H. apply parse_usize_iff in H. rewrite included_one. unfold index_or_name_of. rewrite H. cbn [matches_either].
  rewrite Nat.eqb_eq. lia.
Qed.
Print Assumptions C90_number.
(** ... and with any other text the wikis of that name. *)
Theorem C90_name_partial s i name : (forall n, ~ written_number s n) ->
  included [index_or_name_of s] i name = true <-> name = Some s.
Proof.
  intro H. rewrite included_one. unfold index_or_name_of. destruct (parse_usize s) as [n|] eqn:E; [apply parse_usize_iff in E; destruct (H n E)|].
  cbn [matches_either]. destruct name as [m|]; [|split; discriminate]. rewrite str_eqb_eq. split; [intros ->; reflexivity|intro K; injection K as ->; reflexivity].
Qed.
Print Assumptions C90_name_partial.
Example C90_case : written_number (bs "12") 12 /\ forall n, ~ written_number (bs "work") n.
Proof. split; [now apply parse_usize_iff|]. intros n H. apply parse_usize_iff in H. vm_compute in H. discriminate. Qed.
(** Full statement: a wiki can be selected by its name.  False for a name that
    is a number. *)
Theorem C90_refuted : exists name, forall i, included [index_or_name_of name] i (Some name) = true -> i = N.to_nat 2021.
Proof.
  exists (bs "2021"). intros i H. assert (W : written_number (bs "2021") 2021) by now apply parse_usize_iff.
  apply (C90_number _ _ _ _ W) in H. lia.
Qed.
Print Assumptions C90_refuted.
