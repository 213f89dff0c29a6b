(** Blocks and what stands before them (C99). *)
From Verif Require Import Base ModelSpan ModelComb ModelAst ModelTable ModelLink ModelInline ModelBlock
  ModelOracle ModelElem ModelPath ModelHtml ModelVimwiki SpecDoc SpecSpan SpecEq SpecMove ProofSame ProofFine ProofYield ProofMove5 ProofMove6 SampleDoc.
From Verif Require PropertiesRound PropertiesHtml PropertiesSame PropertiesLines.

Local Notation up0 := rfc_uri_parse.
Local Notation dp0 := ymd_parse.
Local Notation same := (fun u : uri => u).
Local Notation read := PropertiesRound.read.
Local Notation shown := PropertiesRound.shown.
Local Notation doc := PropertiesLines.doc_l.
(** Where a block begins. *)
Local Notation place x := (r_off (l_reg x)).

(** * C99 *)

(** The text from where a block begins, read alone, gives that block and those
    after it, with all elements where they are in the whole text. *)
Theorem C99_resume up dp text rest p1 b p2 : parse_page up dp text = Ok rest (p1 ++ b :: p2) ->
  exists rest' q, parse_page up dp (skipn (place b) text) = Ok rest' q /\
    moved_content (place b) q = located_content_of same (b :: p2).
Proof. exact (resumes up dp text rest p1 b p2). Qed.
Print Assumptions C99_resume.
(** The fourth of eleven blocks, a list. *)
Example C99_resume_case : exists rest b, parse_page up0 dp0 doc = Ok rest (firstn 3 (read doc) ++ b :: skipn 4 (read doc)) /\
  place b = 30 /\ (exists i, l_val b = BList i) /\ length (read (skipn 30 doc)) = 8 /\
  map (fun x => place x) (skipn 3 (read doc)) = map (fun x => 30 + place x) (read (skipn 30 doc)).
Proof.
  exists (Span doc (length doc) (length doc) 0), (nth 3 (read doc) (hd (Loc BDivider (Region 0 0 0)) [])).
  split; [vm_compute; reflexivity|]. split; [vm_compute; reflexivity|]. split; [eexists; vm_compute; reflexivity|]. split; vm_compute; reflexivity.
Qed.

(** So what stands before matters only by letting a block begin there: after
    two beginnings that do, a text gives the same blocks. *)
Theorem C99_before up dp x y t rest rest' p1 b p2 q1 c q2 :
  parse_page up dp (x ++ t) = Ok rest (p1 ++ b :: p2) -> place b = length x ->
  parse_page up dp (y ++ t) = Ok rest' (q1 ++ c :: q2) -> place c = length y ->
  full_content_of same (b :: p2) = full_content_of same (c :: q2) /\
  map (fun k => place k + length y) (b :: p2) = map (fun k => place k + length x) (c :: q2).
Proof.
  intros P B Q C. destruct (resumes up dp _ _ _ _ _ P) as (r & p & Hp & Mp). destruct (resumes up dp _ _ _ _ _ Q) as (r' & q & Hq & Mq).
  rewrite B, skipn_app, skipn_all, Nat.sub_diag in Hp. rewrite C, skipn_app, skipn_all, Nat.sub_diag in Hq. cbn [app skipn] in Hp, Hq.
  rewrite Hp in Hq. injection Hq as <- <-. rewrite B in Mp. rewrite C in Mq. split.
  - now rewrite <- (moved_says _ _ _ Mp), <- (moved_says _ _ _ Mq).
  - assert (K : forall n l, moved_content n p = located_content_of same l -> map (fun k => place k) l = map (fun k => n + place k) p).
    { clear. intros n l H. apply (f_equal (map (fun k => place k))) in H. unfold moved_content, located_content_of, n_page in H.
      rewrite !map_map in H. symmetry. exact H. }
    pose proof (K _ _ Mp) as K1. pose proof (K _ _ Mq) as K2. rewrite <- (map_map (fun k => place k) (fun k => k + length y)), K1.
    rewrite <- (map_map (fun k => place k) (fun k => k + length x)), K2. rewrite !map_map. apply map_ext. intros. lia.
Qed.
Print Assumptions C99_before.
Definition x1 : str := ln "a" ++ ln "b" ++ ln "= h =".
Definition y1 : str := ln "* i" ++ ln "" ++ ln "x:: y" ++ ln "----".
Definition t1 : str := ln "c [[d]]" ++ ln "> e" ++ ln "|f|".
Example C99_before_case : exists rest p1 b p2 rest' q1 c q2,
  parse_page up0 dp0 (x1 ++ t1) = Ok rest (p1 ++ b :: p2) /\ place b = length x1 /\
  parse_page up0 dp0 (y1 ++ t1) = Ok rest' (q1 ++ c :: q2) /\ place c = length y1 /\
  length p1 = 2 /\ length p2 = 2 /\ length q1 = 3 /\ length q2 = 2.
Proof.
  pose (d := Loc BDivider (Region 0 0 0)). pose (P := read (x1 ++ t1)). pose (Q := read (y1 ++ t1)).
  exists (Span (x1 ++ t1) (length (x1 ++ t1)) (length (x1 ++ t1)) 0), (firstn 2 P), (nth 2 P d), (skipn 3 P).
  exists (Span (y1 ++ t1) (length (y1 ++ t1)) (length (y1 ++ t1)) 0), (firstn 3 Q), (nth 3 Q d), (skipn 4 Q).
  split; [vm_compute; reflexivity|]. split; [vm_compute; reflexivity|]. split; [vm_compute; reflexivity|]. split; [vm_compute; reflexivity|].
  split; [vm_compute; reflexivity|]. split; [vm_compute; reflexivity|]. split; vm_compute; reflexivity.
Qed.

(** Blank lines in front change nothing but where everything is; a text whose
    reading panics still does. *)
Theorem C99_blank up dp g t : blank_lines g ->
  match parse_page up dp t, parse_page up dp (g ++ t) with
  | Ok _ p, Ok _ q => moved_content (length g) p = located_content_of same q
  | Panic, Panic => True
  | _, _ => False
  end.
Proof. exact (after_blanks up dp g t). Qed.
Print Assumptions C99_blank.
Definition g1 : str := bs "  " ++ [b_cr; b_nl] ++ [b_nl] ++ [x09; x20; b_nl].
Lemma g1_blank : blank_lines g1.
Proof.
  apply (BlankMore (bs "  ") [b_cr; b_nl] ([b_nl] ++ [x09; x20; b_nl])); [repeat constructor|now right|].
  apply (BlankMore [] [b_nl] [x09; x20; b_nl]); [constructor|now left|].
  apply (BlankMore [x09; x20] [b_nl] []); [repeat constructor|now left|constructor].
Qed.
Example C99_blank_case : blank_lines g1 /\ length (read (g1 ++ doc)) = 11 /\
  parse_page up0 dp0 (g1 ++ doc) = Ok (Span (g1 ++ doc) (length (g1 ++ doc)) (length (g1 ++ doc)) 0) (read (g1 ++ doc)).
Proof. split; [exact g1_blank|]. split; vm_compute; reflexivity. Qed.

(** They are gone when the page is printed, and leave no trace in the HTML. *)
Theorem C99_formatted up dp cfg roman lossy g t r r' p q : blank_lines g ->
  parse_page up dp t = Ok r p -> parse_page up dp (g ++ t) = Ok r' q ->
  page_to_vimwiki cfg roman lossy p = page_to_vimwiki cfg roman lossy q.
Proof.
  intros H P Q. pose proof (after_blanks up dp g t H) as A. rewrite P, Q in A.
  exact (printed_same cfg roman lossy p q (parsed_ok up dp t r p P) (parsed_ok up dp (g ++ t) r' q Q) (moved_says _ _ _ A)).
Qed.
Print Assumptions C99_formatted.
Theorem C99_html up dp lower lossy highlight rel frag read_file today cfg g t r r' p q : blank_lines g ->
  parse_page up dp t = Ok r p -> parse_page up dp (g ++ t) = Ok r' q ->
  page_maps (fun m => length m <= 1) p -> page_maps (fun m => length m <= 1) q ->
  to_html_page lower lossy highlight rel frag read_file today cfg p = to_html_page lower lossy highlight rel frag read_file today cfg q /\
  to_html_string lower lossy highlight rel frag cfg p = to_html_string lower lossy highlight rel frag cfg q.
Proof.
  intros H P Q Mp Mq. pose proof (after_blanks up dp g t H) as A. rewrite P, Q in A.
  exact (PropertiesSame.C77_html_partial lower lossy highlight rel frag read_file today cfg p q
           (parsed_ok up dp t r p P) (parsed_ok up dp (g ++ t) r' q Q) Mp Mq (moved_says _ _ _ A)).
Qed.
Print Assumptions C99_html.
Example C99_formatted_case : blank_lines g1 /\ shown (read (g1 ++ doc)) = shown (read doc) /\ shown (read doc) <> [] /\
  page_maps (fun m => length m <= 1) (read doc) /\ page_maps (fun m => length m <= 1) (read (g1 ++ doc)).
Proof.
  split; [exact g1_blank|]. split; [vm_compute; reflexivity|]. split; [vm_compute; discriminate|]. split; vm_compute; repeat split; auto.
Qed.

(** A beginning that does not let a block begin there changes what follows: a
    line below a paragraph goes on with it, and an indented line below a list
    item is part of it. *)
Example C99_other_case : length (read (ln "a" ++ ln "b")) = 1 /\ length (read (ln "* a" ++ ln "  b")) = 1 /\
  length (read (ln "b")) = 1 /\ length (read (ln "  b")) = 1.
Proof. split; [vm_compute; reflexivity|]. split; [vm_compute; reflexivity|]. split; vm_compute; reflexivity. Qed.
