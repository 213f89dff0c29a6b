(** Paths, output files and links of the HTML output (C44-C49, C63). *)
From Verif Require Import Base ModelSpan ModelAst ModelLink ModelElem ModelOracle ModelPath
  SpecPath ProofPath ProofPath2.

Definition names_of (s : string) : list str := split_on x2f (bs s).
Definition sample_wiki (path html : string) : wiki :=
  Wiki (at_root (names_of path)) (at_root (names_of html)) None (bs "style.css") (bs "wiki") (below [bs "diary"]).

(** * C44 *)

(** No input makes the computation of the output file panic. *)
Theorem C44_total w wp hp input ext :
  w_path w = at_root wp -> w_html w = at_root hp -> make_output_path w input ext <> None.
Proof. intros H1 H2 K. destruct (make_output_total w wp hp input ext H1 H2) as [r E]. congruence. Qed.
Print Assumptions C44_total.

Example C44_total_case :
  make_output_path (sample_wiki "home/wiki" "home/html") [CParent; CNorm (bs "x.wiki")] (bs "html") =
  Some [CRoot; CNorm (bs "home"); CNorm (bs "html"); CParent; CNorm (bs "x.html")].
Proof. reflexivity. Qed.

(** The output of a page whose path below the wiki has no ".." lies at the same
    place below the HTML directory, with the extension exchanged.  Not covered:
    paths with ".." (see the refutation). *)
Theorem C44_below_partial w wp hp dirs n ext :
  w_path w = at_root wp -> w_html w = at_root hp -> n <> [] -> ext <> [] ->
  exists m, renamed ext n m /\
    make_output_path w (at_root (wp ++ dirs ++ [n])) ext = Some (at_root (hp ++ dirs ++ [m])).
Proof.
  intros Hp Hh Hn He. exists (dotted (fst (rsplit_dot n)) ext). split; [now apply rsplit_renamed|].
  apply (page_output w wp hp); auto.
Qed.
Print Assumptions C44_below_partial.

Example C44_below_case :
  exists m, renamed (bs "html") (bs "notes.v2.wiki") m /\ m = bs "notes.v2.html" /\
  make_output_path (sample_wiki "home/wiki" "home/html") (at_root (names_of "home/wiki/a/notes.v2.wiki")) (bs "html") =
  Some (at_root (names_of "home/html/a/notes.v2.html")).
Proof.
  exists (bs "notes.v2.html"). split; [|split; reflexivity].
  apply (rn_dotted (bs "html") (bs "notes.v2") (bs "wiki")); [discriminate|].
  intro K. cbn in K. intuition discriminate.
Qed.

(** A page path that leaves the wiki through ".." has an output outside the
    HTML directory. *)
Theorem C44_refuted : exists w input out,
  w_path w = at_root [bs "wiki"] /\ w_html w = at_root [bs "html"] /\
  prefix_of (w_path w) input /\
  make_output_path w input (bs "html") = Some out /\
  ~ prefix_of (w_html w) (normalize_path out).
Proof.
  exists (sample_wiki "wiki" "html"), [CRoot; CNorm (bs "wiki"); CParent; CNorm (bs "x.wiki")],
    [CRoot; CNorm (bs "html"); CParent; CNorm (bs "x.html")].
  repeat split; try reflexivity.
  - now exists [CParent; CNorm (bs "x.wiki")].
  - intro K. apply starts_with_iff in K. vm_compute in K. discriminate.
Qed.
Print Assumptions C44_refuted.

(** * C63 *)

(** Two pages of a wiki never share an output file. *)
Theorem C63_outputs_differ w wp hp ds1 n1 ds2 n2 ext :
  w_path w = at_root wp -> w_html w = at_root hp -> n1 <> [] -> n2 <> [] -> no_dot (w_ext w) -> ext <> [] ->
  ds1 ++ [dotted n1 (w_ext w)] <> ds2 ++ [dotted n2 (w_ext w)] ->
  make_output_path w (at_root (wp ++ ds1 ++ [dotted n1 (w_ext w)])) ext <>
  make_output_path w (at_root (wp ++ ds2 ++ [dotted n2 (w_ext w)])) ext.
Proof.
  intros Hp Hh H1 H2 He Hx Hne K.
  destruct (outputs_differ w wp hp ds1 n1 ds2 n2 (w_ext w) ext Hp Hh H1 H2 He Hx K) as [-> ->]. congruence.
Qed.
Print Assumptions C63_outputs_differ.

Example C63_case :
  make_output_path (sample_wiki "w" "h") (at_root (names_of "w/a.b.wiki")) (bs "html") =
    Some (at_root (names_of "h/a.b.html")) /\
  make_output_path (sample_wiki "w" "h") (at_root (names_of "w/a.wiki")) (bs "html") =
    Some (at_root (names_of "h/a.html")).
Proof. split; reflexivity. Qed.

(** * C45 *)

(** One parent hop for every directory between the wiki and the page. *)
Theorem C45_hops w wp dirs n : w_path w = at_root wp ->
  path_to_root w (at_root (wp ++ dirs ++ [n])) = Some (repeat CParent (length dirs)).
Proof. intro H. now apply path_to_root_spec. Qed.
Print Assumptions C45_hops.

Example C45_hops_case :
  path_to_root (sample_wiki "home/wiki" "html") (at_root (names_of "home/wiki/a/b/page.wiki")) = Some [CParent; CParent].
Proof. reflexivity. Qed.

(** A page outside the wiki has no path to its root. *)
Theorem C45_outside w p : ~ prefix_of (w_path w) p -> path_to_root w p = None.
Proof.
  intro H. unfold path_to_root, path_within. destruct (strip_prefix p (w_path w)) as [r|] eqn:E; auto.
  apply strip_prefix_spec in E. exfalso. apply H. now exists r.
Qed.
Print Assumptions C45_outside.

Example C45_outside_case :
  ~ prefix_of (w_path (sample_wiki "home/wiki" "html")) (at_root (names_of "home/wiki2/page.wiki")) /\
  path_to_root (sample_wiki "home/wiki" "html") (at_root (names_of "home/wiki2/page.wiki")) = None.
Proof. split; [|reflexivity]. intro K. apply starts_with_iff in K. vm_compute in K. discriminate. Qed.

(** A template that puts the variable root_path before a file name refers to
    that file at the root of the site, from every page. *)
Theorem C45_root_prefix c w wp dirs n i x :
  pc_index c = Some i -> nth_error (pc_wikis c) i = Some w -> w_path w = at_root wp ->
  pc_page c = at_root (wp ++ dirs ++ [n]) -> name_ok x ->
  forall html, follow (dirs ++ [html]) (root_text c ++ x) = [percent_decode x].
Proof. intros Hi Hw Hp Hpg Hx html. exact (root_text_follow c w wp dirs n i x Hi Hw Hp Hpg Hx html). Qed.
Print Assumptions C45_root_prefix.

Example C45_root_prefix_case :
  root_text (PathsConfig [sample_wiki "home/wiki" "html"] (Some 0) (at_root (names_of "home/wiki/a/b/page.wiki"))) ++ bs "style.css" =
    bs "../../style.css" /\
  follow (names_of "a/b/page.html") (bs "../../style.css") = [bs "style.css"] /\
  root_text (PathsConfig [sample_wiki "home/wiki" "html"] (Some 0) (at_root (names_of "home/wiki/page.wiki"))) = [].
Proof. repeat split. Qed.

(** * C46 *)

(** The chosen wiki contains the page, and no wiki that contains it lies
    deeper. *)
Theorem C46_deepest c p i : find_wiki_index_by_path c p = Some i ->
  exists w, nth_error (pc_wikis c) i = Some w /\ prefix_of (w_path w) p /\
    forall w', In w' (pc_wikis c) -> prefix_of (w_path w') p -> length (w_path w') <= length (w_path w).
Proof. apply find_wiki_some. Qed.
Print Assumptions C46_deepest.

(** A page gets no wiki only if no wiki contains it. *)
Theorem C46_none c p : find_wiki_index_by_path c p = None ->
  forall w, In w (pc_wikis c) -> ~ prefix_of (w_path w) p.
Proof. apply find_wiki_none. Qed.
Print Assumptions C46_none.

Example C46_case :
  let c := PathsConfig [sample_wiki "w" "h"; sample_wiki "w/sub" "h2"; sample_wiki "other" "h3"] None [] in
  find_wiki_index_by_path c (at_root (names_of "w/sub/a.wiki")) = Some 1 /\
  find_wiki_index_by_path c (at_root (names_of "w/subway/a.wiki")) = Some 0 /\
  find_wiki_index_by_path c (at_root (names_of "x/a.wiki")) = None.
Proof. repeat split. Qed.

(** * C47 *)

(** Following the generated link from a file leads to the target.  Missing:
    targets whose path leads through the source file, the directory of the
    source (both refuted below), and names with escapes or dots. *)
Theorem C47_relative_link_partial a b :
  Forall unescaped a -> Forall unescaped b -> Forall name_ok b -> ~ comparable a b ->
  follow a (relative_link_text (at_root a) (at_root b)) = b.
Proof. apply relative_link_follow. Qed.
Print Assumptions C47_relative_link_partial.

Example C47_case :
  relative_link_text (at_root (names_of "h/a/b/page.html")) (at_root (names_of "h/a/c/other.html")) = bs "../c/other.html" /\
  ~ comparable (names_of "h/a/b/page.html") (names_of "h/a/c/other.html") /\
  relative_link_text (at_root (names_of "h/page.html")) (at_root (names_of "h/page.html")) = [].
Proof. repeat split. intros [[[r K] _]|[_ K]]; cbn in K; discriminate. Qed.

(** A page named like a directory on the way to the target: the link is
    wrong. *)
Theorem C47_refuted : exists a b,
  Forall unescaped a /\ Forall unescaped b /\ Forall name_ok b /\
  follow a (relative_link_text (at_root a) (at_root b)) <> b.
Proof.
  exists (names_of "h/a.html"), (names_of "h/a.html/b.html").
  assert (U : forall l, forallb (fun s => forallb (fun b => negb (beqb b x25)) s) l = true -> Forall unescaped l).
  { intros l H. rewrite forallb_forall in H. apply Forall_forall. intros s Hs K. specialize (H s Hs).
    rewrite forallb_forall in H. specialize (H _ K). discriminate. }
  split; [apply U; reflexivity|]. split; [apply U; reflexivity|]. split; [|intro K; vm_compute in K; discriminate].
  repeat constructor; try discriminate; intro K; cbn in K; intuition discriminate.
Qed.
Print Assumptions C47_refuted.

(** Likewise a link to the directory that holds the page. *)
Theorem C47_refuted_directory : exists a b,
  a <> b /\ follow a (relative_link_text (at_root a) (at_root b)) = a.
Proof. exists (names_of "h/a/b"), (names_of "h/a"). split; [|reflexivity]. intro K. vm_compute in K. discriminate. Qed.
Print Assumptions C47_refuted_directory.

(** * C48 *)

(** Normalising resolves ".", and ".." against the name before it, the root or
    the start of the path; the result has neither. *)
Theorem C48_resolves p : rooted_once p -> reduces p (normalize_path p) /\ dot_free (normalize_path p).
Proof. intro H. destruct (normalize_spec p H) as [H1 H2]. split; [exact H2 | now apply normal_dot_free]. Qed.
Print Assumptions C48_resolves.

Theorem C48_idempotent p : rooted_once p -> normalize_path (normalize_path p) = normalize_path p.
Proof. apply normalize_idem. Qed.
Print Assumptions C48_idempotent.

(** Paths without dots are not changed. *)
Theorem C48_unchanged p : dot_free p -> rooted_once p -> normalize_path p = p.
Proof. apply normalize_id. Qed.
Print Assumptions C48_unchanged.

Example C48_case :
  normalize_path (path_of_str (bs "/a/./b/../../../c/d")) = path_of_str (bs "/c/d") /\
  rooted_once (path_of_str (bs "/a/./b/../../../c/d")).
Proof. split; [reflexivity|]. intro K. cbn in K. intuition discriminate. Qed.

(** * C49 *)

Section Links.
Variable rel_parse : str -> option uri.
Variable frag_parse : str -> option str.

(** A wiki link to a page - relative or from the wiki root, to a file or to a
    directory, which means its index page - becomes a reference that leads from
    the HTML file of the linking page to the HTML file of the page it names,
    with the anchor as fragment.  Missing: page names with a dot, absolute
    links that start with the path of the wiki itself (refuted below), links
    that climb out of the wiki. *)
Theorem C49_wiki_link_partial c w wp hp sd sn d segs n base :
  w_path w = at_root wp -> w_html w = at_root hp ->
  Forall name_ok (hp ++ sd ++ [sn]) -> Forall unescaped (hp ++ sd ++ [sn]) ->
  is_local d = true -> is_local_anchor d = false ->
  Forall (fun s => ~ In x2f s) (u_segs (ld_uri d)) -> link_page d = segs ++ [n] -> name_ok n -> no_dot n ->
  base = (if u_abs (ld_uri d) then [] else sd) -> stays (length base) segs = true ->
  (u_abs (ld_uri d) = true -> ~ prefix_of wp (proper_names (segs ++ [n]))) ->
  no_page (hp ++ sd ++ segs) -> no_dot (w_ext w) ->
  exists src_out dirs text,
    make_output_path w (below (sd ++ [sn])) (bs "html") = Some (at_root src_out) /\
    dirs = follow_names percent_decode base segs /\
    make_output_path w (at_root (wp ++ dirs ++ [dotted (percent_decode n) (w_ext w)])) (bs "html") =
      Some (at_root (follow src_out text)) /\
    follow src_out text = hp ++ dirs ++ [dotted (percent_decode n) (bs "html")] /\
    linked rel_parse frag_parse text (to_anchor d)
      (resolve_link rel_parse frag_parse c w (below (sd ++ [sn])) (LWiki d)).
Proof. apply resolve_wiki. Qed.

(** The same for links to another configured wiki, by index or by name; a link
    to a directory is not covered (refuted below). *)
Theorem C49_interwiki_link_partial c w w' wp hp wp' hp' sd sn d segs n l :
  w_path w = at_root wp -> w_html w = at_root hp -> w_path w' = at_root wp' -> w_html w' = at_root hp' ->
  Forall name_ok (hp ++ sd ++ [sn] ++ hp') -> Forall unescaped (hp ++ sd ++ [sn] ++ hp') ->
  Forall (fun s => ~ In x2f s) (u_segs (ld_uri d)) -> u_segs (ld_uri d) = segs ++ [n] -> name_ok n -> no_dot n ->
  stays 0 segs = true ->
  (u_abs (ld_uri d) = true -> ~ prefix_of wp' (proper_names (segs ++ [n]))) ->
  no_page (hp ++ sd ++ hp' ++ segs) -> no_dot (w_ext w') ->
  (exists i, l = LIndexed i d /\ find_wiki_by_index c (N.to_nat i) = Some w') \/
  (exists m, l = LNamed m d /\ find_wiki_by_name c m = Some w') ->
  exists src_out dirs text,
    make_output_path w (below (sd ++ [sn])) (bs "html") = Some (at_root src_out) /\
    dirs = follow_names percent_decode [] segs /\
    make_output_path w' (at_root (wp' ++ dirs ++ [dotted (percent_decode n) (w_ext w')])) (bs "html") =
      Some (at_root (follow src_out text)) /\
    follow src_out text = hp' ++ dirs ++ [dotted (percent_decode n) (bs "html")] /\
    linked rel_parse frag_parse text (to_anchor d)
      (resolve_link rel_parse frag_parse c w (below (sd ++ [sn])) l).
Proof. apply resolve_other. Qed.

(** A diary link leads to the page of that date in the diary directory. *)
Theorem C49_diary_link c w wp hp dd sd sn dt d :
  w_path w = at_root wp -> w_html w = at_root hp -> w_diary w = below dd ->
  Forall name_ok (hp ++ dd ++ sd ++ [sn]) -> Forall unescaped (hp ++ dd ++ sd ++ [sn]) ->
  no_page (hp ++ dd ++ sd) -> no_dot (w_ext w) ->
  exists src_out text,
    make_output_path w (below (sd ++ [sn])) (bs "html") = Some (at_root src_out) /\
    make_output_path w (at_root (wp ++ dd ++ [dotted (date_display dt) (w_ext w)])) (bs "html") =
      Some (at_root (follow src_out text)) /\
    follow src_out text = hp ++ dd ++ [dotted (date_display dt) (bs "html")] /\
    linked rel_parse frag_parse text (to_anchor d)
      (resolve_link rel_parse frag_parse c w (below (sd ++ [sn])) (LDiary dt d)).
Proof.
  intros. destruct (date_display_name dt) as (D1 & D2 & D3). now apply (resolve_diary rel_parse frag_parse c w wp hp).
Qed.

(** A local transclusion refers to the file of that name below the HTML
    directory. *)
Theorem C49_transclusion_link c w wp hp sd sn d segs n base :
  w_path w = at_root wp -> w_html w = at_root hp ->
  Forall name_ok (hp ++ sd ++ [sn]) -> Forall unescaped (hp ++ sd ++ [sn]) ->
  is_local d = true ->
  Forall (fun s => ~ In x2f s) (u_segs (ld_uri d)) -> u_segs (ld_uri d) = segs ++ [n] -> name_ok n ->
  (forall st, n <> dotted st []) ->
  base = (if u_abs (ld_uri d) then [] else sd) -> stays (length base) segs = true ->
  (u_abs (ld_uri d) = true -> ~ prefix_of wp (proper_names (segs ++ [n]))) ->
  no_page (hp ++ sd ++ segs ++ [n]) -> follow_names (fun s => s) base (segs ++ [n]) <> sd ->
  exists src_out text,
    make_output_path w (below (sd ++ [sn])) (bs "html") = Some (at_root src_out) /\
    follow src_out text = hp ++ follow_names percent_decode base (segs ++ [n]) /\
    linked rel_parse frag_parse text None
      (resolve_link rel_parse frag_parse c w (below (sd ++ [sn])) (LTransclusion d)).
Proof. apply resolve_transclusion. Qed.

(** Raw links and links that leave the local system are kept as they are, and
    so are links to an anchor of the page itself. *)
Theorem C49_kept c w wp hp src l d :
  w_path w = at_root wp -> w_html w = at_root hp ->
  l = LRaw d \/ (l = LWiki d /\ (is_local d = false \/ is_local_anchor d = true)) \/
  (l = LTransclusion d /\ is_local d = false) ->
  resolve_link rel_parse frag_parse c w src l = RsUri (ld_uri d).
Proof.
  intros Hp Hh H. unfold resolve_link.
  destruct (make_output_total w wp hp src (bs "html") Hp Hh) as [r ->].
  destruct H as [->|[[-> [H|H]]|[-> H]]]; auto; rewrite H; auto.
  now rewrite andb_false_r.
Qed.

(** A link to a wiki that is not configured is an error, not a wrong link. *)
Theorem C49_missing c w wp hp src d :
  w_path w = at_root wp -> w_html w = at_root hp ->
  (forall i, nth_error (pc_wikis c) (N.to_nat i) = None ->
     resolve_link rel_parse frag_parse c w src (LIndexed i d) = RsMissingIndex i) /\
  (forall m, (forall x, In x (pc_wikis c) -> w_name x <> Some m) ->
     resolve_link rel_parse frag_parse c w src (LNamed m d) = RsMissingName m).
Proof.
  intros Hp Hh. destruct (make_output_total w wp hp src (bs "html") Hp Hh) as [r Er].
  split; intros k H; unfold resolve_link; rewrite Er.
  - unfold find_wiki_by_index. now rewrite H.
  - unfold find_wiki_by_name, find_wiki_index_by_name. rewrite find_pos_none; auto.
    intros x Hx. specialize (H x Hx). destruct (w_name x) as [m|]; auto.
    destruct (str_eqb m k) eqn:E; auto. apply str_eqb_eq in E. congruence.
Qed.
End Links.
Print Assumptions C49_wiki_link_partial.
Print Assumptions C49_interwiki_link_partial.
Print Assumptions C49_diary_link.
Print Assumptions C49_transclusion_link.
Print Assumptions C49_kept.
Print Assumptions C49_missing.

Definition sample_link (abs : bool) (segs : list str) (frag : option str) : link_data :=
  LinkData (Uri None None abs segs None frag) None None.
Definition sample_config : paths_config :=
  PathsConfig [sample_wiki "w" "h"; Wiki (at_root [bs "v"]) (at_root (names_of "pub/v")) (Some (bs "other"))
                                      (bs "style.css") (bs "wiki") (below [bs "diary"])] (Some 0) [].
Definition sample_resolve (src : string) (l : link) : str :=
  match resolve_link rfc_uri_parse Some sample_config (sample_wiki "w" "h") (below (names_of src)) l with
  | RsUri u => uri_display u
  | _ => bs "error"
  end.

(** A page a/b/p.wiki with links up, down, to the root, to a directory, with an
    anchor, to another wiki and to a diary page. *)
Example C49_case :
  sample_resolve "a/b/p.wiki" (LWiki (sample_link false (names_of "../my%20page") None)) = bs "../my%20page.html" /\
  sample_resolve "a/b/p.wiki" (LWiki (sample_link false (names_of "c/q") (Some (bs "x%23y")))) = bs "c/q.html#x-y" /\
  sample_resolve "a/b/p.wiki" (LWiki (sample_link true (names_of "top") None)) = bs "../../top.html" /\
  sample_resolve "a/b/p.wiki" (LWiki (sample_link false (names_of "dir/") None)) = bs "dir/index.html" /\
  sample_resolve "a/b/p.wiki" (LIndexed 1 (sample_link false (names_of "q") None)) = bs "../../../pub/v/q.html" /\
  sample_resolve "a/b/p.wiki" (LNamed (bs "other") (sample_link false (names_of "q") None)) = bs "../../../pub/v/q.html" /\
  sample_resolve "a/b/p.wiki" (LDiary (Date 2021 3 4) (sample_link false [] None)) = bs "../../diary/2021-03-04.html" /\
  sample_resolve "a/b/p.wiki" (LTransclusion (sample_link false (names_of "../pic.png") None)) = bs "../pic.png".
Proof. vm_compute. repeat split. Qed.

Example C49_case_hypotheses :
  let d := sample_link false (names_of "../my%20page") None in
  let hp := [bs "h"] in let sd := names_of "a/b" in
  Forall name_ok (hp ++ sd ++ [bs "p.wiki"]) /\ Forall unescaped (hp ++ sd ++ [bs "p.wiki"]) /\
  is_local d = true /\ is_local_anchor d = false /\ link_page d = [bs ".."] ++ [bs "my%20page"] /\
  no_dot (bs "my%20page") /\ stays 2 [bs ".."] = true /\ no_page (hp ++ sd ++ [bs ".."]) /\
  percent_decode (bs "my%20page") = bs "my page".
Proof.
  cbv zeta. repeat (split; [first [reflexivity
    | repeat constructor; try discriminate; intro K; cbn in K; intuition discriminate
    | intro K; cbn in K; intuition discriminate]|]).
  split; [|reflexivity].
  apply Forall_forall. intros s Hs [n K]. apply (f_equal (fun l => (length l, rev l))) in K.
  unfold dotted in K. rewrite !rev_app_distr in K. cbn in K. injection K as _ K.
  cbn in Hs. destruct Hs as [<-|[<-|[<-|[<-|[]]]]]; discriminate.
Qed.

(** The page v1.2.wiki has the output v1.2.html, but a link to v1.2 leads to
    v1.html. *)
Theorem C49_refuted_dotted_name : exists w d src_out text,
  make_output_path w (below [bs "index.wiki"]) (bs "html") = Some (at_root src_out) /\
  link_page d = [bs "v1.2"] /\
  make_output_path w (below [bs "v1.2.wiki"]) (bs "html") = Some (at_root [bs "h"; bs "v1.2.html"]) /\
  linked rfc_uri_parse Some text (to_anchor d) (resolve_link rfc_uri_parse Some sample_config w (below [bs "index.wiki"]) (LWiki d)) /\
  follow src_out text = [bs "h"; bs "v1.html"].
Proof.
  exists (sample_wiki "w" "h"), (sample_link false [bs "v1.2"] None), [bs "h"; bs "index.html"], (bs "v1.html").
  vm_compute. repeat split.
Qed.
Print Assumptions C49_refuted_dotted_name.

(** In a wiki at /w, the link [[/w/page]] leads to the page "page" instead of
    the page "w/page". *)
Theorem C49_refuted_absolute : exists w d src_out text,
  make_output_path w (below [bs "index.wiki"]) (bs "html") = Some (at_root src_out) /\
  u_abs (ld_uri d) = true /\ link_page d = [bs "w"; bs "page"] /\
  make_output_path w (below [bs "w"; bs "page.wiki"]) (bs "html") = Some (at_root [bs "h"; bs "w"; bs "page.html"]) /\
  linked rfc_uri_parse Some text (to_anchor d) (resolve_link rfc_uri_parse Some sample_config w (below [bs "index.wiki"]) (LWiki d)) /\
  follow src_out text = [bs "h"; bs "page.html"].
Proof.
  exists (sample_wiki "w" "h"), (sample_link true [bs "w"; bs "page"] None), [bs "h"; bs "index.html"], (bs "page.html").
  vm_compute. repeat split.
Qed.
Print Assumptions C49_refuted_absolute.

(** A link to a directory of another wiki does not lead to its index page. *)
Theorem C49_refuted_interwiki_dir : exists d src_out text,
  link_page d = [bs "dir"; []; bs "index"] /\
  make_output_path (sample_wiki "w" "h") (below [bs "index.wiki"]) (bs "html") = Some (at_root src_out) /\
  linked rfc_uri_parse Some text (to_anchor d)
    (resolve_link rfc_uri_parse Some sample_config (sample_wiki "w" "h") (below [bs "index.wiki"]) (LIndexed 1 d)) /\
  follow src_out text = [bs "pub"; bs "v"; bs "dir.html"].
Proof.
  exists (sample_link false [bs "dir"; []] None), [bs "h"; bs "index.html"], (bs "../pub/v/dir.html").
  vm_compute. repeat split.
Qed.
Print Assumptions C49_refuted_interwiki_dir.
