(** HTML output (C39-C43, C64-C70). *)
From Coq Require Import Permutation.
From Verif Require Import Base ModelSpan ModelComb ModelAst ModelTable ModelLink ModelInline ModelBlock ModelOracle
  ModelElem ModelPath ModelHtml SpecHtml ProofTree ProofElem2 ProofHtml ProofHtmlId ProofHtml2 ProofHtml3 ProofHtml4 ProofHtml5.

(** What is assumed of uriparse: the parts of a URI contain none of the
    characters that end an attribute value or begin a tag. *)
Definition clean_uris (rel : str -> option uri) (frag : str -> option str) : Prop :=
  (forall s u, rel s = Some u -> uri_clean u) /\ (forall s f, frag s = Some f -> free attr_markup f).
Lemma rfc_clean_uris : clean_uris rfc_uri_parse rfc_fragment.
Proof. split; [exact rfc_clean | exact rfc_fragment_clean]. Qed.

(** Concrete pages are rendered as /w/page.wiki of the wiki /w with HTML in /h,
    with lowercasing of ASCII letters. *)
Definition nl (s : string) : str := bs s ++ [b_nl].
Definition page_of (s : str) : page :=
  match parse_page rfc_uri_parse ymd_parse s with Ok _ p => p | _ => [] end.
Definition the_wiki : wiki :=
  Wiki [CRoot; CNorm (bs "w")] [CRoot; CNorm (bs "h")] None (bs "style.css") (bs "wiki") [CNorm (bs "diary")].
Definition the_config : html_config :=
  HtmlConfig (PathsConfig [the_wiki] (Some 0) [CRoot; CNorm (bs "w"); CNorm (bs "page.wiki")]) [CRoot] (bs "Contents")
    true false false (bs "<title>%title%</title>%content%") [CRoot].
Definition ascii_lower : str -> str := map to_lower.
Definition same (s : str) : str := s.
Definition no_highlight : option str -> list str -> option str := fun _ _ => None.
Definition no_file : path -> option str := fun _ => None.
Definition html : page -> hres str :=
  to_html_string ascii_lower same no_highlight rfc_uri_parse rfc_fragment the_config.
Definition html_page : page -> hres str :=
  to_html_page ascii_lower same no_highlight rfc_uri_parse rfc_fragment no_file (Date 2021 3 5) the_config.
Definition the_slug : str -> str := normalize_id ascii_lower.
(** Decides [tame] for the concrete pages. *)
Definition freeb (bad s : str) : bool := forallb (fun b => negb (existsb (beqb b) bad)) s.
Definition raw_okb (comments : bool) (r : raw) : bool :=
  match r with
  | RKey k => negb (str_eqb k []) && freeb key_markup k
  | RAttr v => freeb attr_markup v
  | RText t => freeb markup t
  | RUri u => forallb (freeb attr_markup) (uri_parts u)
  | RComment t => negb comments || freeb (bs ">") t
  end.
Lemma freeb_ok bad s : freeb bad s = true -> free bad s.
Proof.
  unfold freeb, free. rewrite forallb_forall, Forall_forall. intros H b I K. specialize (H b I).
  apply negb_true_iff in H. assert (existsb (beqb b) bad = true); [|congruence].
  apply existsb_exists. exists b. split; [exact K | now apply beqb_eq].
Qed.
Lemma tame_dec comments p : forallb (raw_okb comments) (page_raw p) = true -> tame comments p.
Proof.
  unfold tame. rewrite forallb_forall, Forall_forall. intros H r I. specialize (H r I).
  destruct r as [k|v|t|u|t]; cbn [raw_okb raw_ok] in *.
  - apply andb_true_iff in H. destruct H as [H1 H2]. split; [|now apply freeb_ok].
    intros ->. discriminate.
  - now apply freeb_ok.
  - now apply freeb_ok.
  - unfold uri_clean. rewrite forallb_forall in H. rewrite Forall_forall. intros x X. apply freeb_ok. now apply H.
  - intros ->. now apply freeb_ok.
Qed.

(** * C42 *)

(** The HTML of a page whose unescaped parts (see [tame]: link targets,
    property names, code language and metadata, math environment, comments)
    contain no markup is a sequence of tags, text and comments where every tag
    is closed in order.  Highlighting by the server is left out. *)
Theorem C42_nested_partial lower lossy hl rel frag cfg p o :
  clean_uris rel frag -> hc_server cfg = false -> tame (hc_comments cfg) p ->
  to_html_string lower lossy hl rel frag cfg p = HOk o ->
  exists ts, scan o = Some ts /\ nested [] ts = true.
Proof.
  intros [A B] C T E. destruct (page_rendered _ _ _ _ _ _ _ _ A B C T E) as (ts & us & F).
  exists ts. split; [exact (pf_scan _ _ _ _ _ _ _ _ _ F) | exact (pf_nested _ _ _ _ _ _ _ _ _ F)].
Qed.
Print Assumptions C42_nested_partial.

Definition sample_text : str :=
  nl "= A & B =" ++ nl "text with *bold <i>* and `x < y`" ++ nl "second line [[other page|see]]" ++ nl "- one" ++
  nl "- two" ++ nl "" ++ nl "|h|i|" ++ nl "|-|-|" ++ nl "|a|>|" ++ nl "" ++ nl "== Deep ==" ++ nl ":tag:".
Definition sample_out : str :=
  nl "<h1 id=""a-&amp;-b"" class=""header""><a href=""#a-&amp;-b"">A &amp; B</a></h1>" ++
  nl "<p>text with <span id=""a-&amp;-b-bold-&lt;i&gt;""></span><strong id=""bold-&lt;i&gt;"">bold &lt;i&gt;</strong> and <code>x &lt; y</code> second line <a href=""other%20page.html"">see</a></p>".
Example C42_case :
  tame false (page_of sample_text) /\
  exists o ts, html (page_of sample_text) = HOk o /\ starts_with sample_out o = true /\
    scan o = Some ts /\ length ts = 87 /\ nested [] ts = true.
Proof.
  split.
  - apply tame_dec. vm_compute. reflexivity.
  - do 2 eexists. split; [vm_compute; reflexivity|]. split; [vm_compute; reflexivity|].
    split; [vm_compute; reflexivity|]. split; vm_compute; reflexivity.
Qed.

(** Unescaped parts can break the nesting: here the language of a code block. *)
Theorem C42_refuted : exists input o ts,
  html (page_of input) = HOk o /\ scan o = Some ts /\ nested [] ts = false.
Proof.
  exists (nl "{{{c""><script>" ++ nl "x" ++ nl "}}}"). do 2 eexists.
  split; [vm_compute; reflexivity|]. split; vm_compute; reflexivity.
Qed.
Print Assumptions C42_refuted.

(** * C41 *)

(** In the HTML of a tame page the tags are the generator's own, attributes are
    the generator's or named by the page's own properties and metadata, and
    neither texts nor attribute values contain markup characters. *)
Theorem C41_markup_partial lower lossy hl rel frag cfg p o :
  clean_uris rel frag -> hc_server cfg = false -> tame (hc_comments cfg) p ->
  to_html_string lower lossy hl rel frag cfg p = HOk o ->
  exists ts, scan o = Some ts /\
    Forall (fun t => match tk_name t with Some n => generator_name n | None => True end) ts /\
    Forall (fun t => Forall (fun kv =>
      (In (fst kv) plain_attrs \/ In (RKey (fst kv)) (page_raw p)) /\ free attr_markup (snd kv)) (tk_attrs t)) ts /\
    free markup (texts ts).
Proof.
  intros [A B] C T E. destruct (page_rendered _ _ _ _ _ _ _ _ A B C T E) as (ts & us & [S1 K F _ _ _ _]).
  exists ts. split; [exact S1|]. rewrite Forall_forall in K, F. repeat split.
  - apply Forall_forall. intros t I. apply (F t I).
  - apply Forall_forall. intros t I. destruct (F t I) as [_ G]. rewrite Forall_forall in G. apply Forall_forall.
    intros kv J. split; [exact (G kv J)|]. specialize (K t I).
    destruct t; cbn [tk_attrs tok_ok] in *; try contradiction; destruct K as (_ & _ & K);
      rewrite Forall_forall in K; apply (K kv J).
  - unfold free, texts. apply Forall_flat_map. apply Forall_forall. intros t I. specialize (K t I).
    destruct t; try constructor. exact K.
Qed.
Print Assumptions C41_markup_partial.

(** Escaped text has no markup and reads back as the original. *)
Theorem C41_escape s : free attr_markup (escape_html s) /\ decode (escape_html s) = s.
Proof. split; [apply escape_attr | apply decode_escape]. Qed.
Print Assumptions C41_escape.
Example C41_case :
  escape_html (bs "a<b>""c""&lt;`'") = bs "a&lt;b&gt;&quot;c&quot;&amp;lt;&#x60;&#x27;" /\
  html (page_of (nl "a <b>")) = HOk (nl "<p>a &lt;b&gt;</p>") /\ tame false (page_of (nl "a <b>")).
Proof. split; [reflexivity|]. split; [vm_compute; reflexivity|]. apply tame_dec. vm_compute. reflexivity. Qed.

(** The unescaped parts really carry markup into the output. *)
Definition injects (input : str) (markup_text : str) : Prop :=
  exists o, html (page_of input) = HOk o /\ contains markup_text o.
Ltac injected a b := eexists; split; [vm_compute; reflexivity | exists a, b; vm_compute; reflexivity].
Theorem C41_refuted_language : injects (nl "{{{c""><script>" ++ nl "x" ++ nl "}}}") (bs "<script>").
Proof. injected (bs "<pre><code class=""c"">") (bs """>x</code></pre>" ++ [b_nl]). Qed.
Print Assumptions C41_refuted_language.
Theorem C41_refuted_metadata : injects (nl "{{{c key=""<b>""" ++ nl "x" ++ nl "}}}") (bs "<b>").
Proof. injected (bs "<pre><code class=""c"" key=""") (bs """>x</code></pre>" ++ [b_nl]). Qed.
Print Assumptions C41_refuted_metadata.
Theorem C41_refuted_environment : injects (nl "{{$%<b>%" ++ nl "x" ++ nl "}}$") (bs "<b>").
Proof. injected (bs "\begin{") (nl "}" ++ nl "x" ++ nl "\end{<b>}"). Qed.
Print Assumptions C41_refuted_environment.
Theorem C41_refuted_property : injects (nl "[[x|y|<b>=""z""]]") (bs "<b>").
Proof. injected (bs "<p><a href=""x.html"" ") (nl "=""z"">y</a></p>"). Qed.
Print Assumptions C41_refuted_property.
(** The title reaches the template unescaped. *)
Theorem C41_refuted_title : exists o,
  html_page (page_of (nl "%title <script>" ++ nl "text")) = HOk o /\ contains (bs "<script>") o.
Proof. eexists. split; [vm_compute; reflexivity|]. exists (bs "<title>"), (bs "</title>" ++ [b_nl] ++ nl "<p>text</p>"). vm_compute. reflexivity. Qed.
Print Assumptions C41_refuted_title.

(** * C39 *)

(** The ids of a tame page are the ones handed out for its headers, bold texts
    and tags.  They are all different if the page names no attribute "id" and
    no id asked for is another one followed by a dash and a small number. *)
Theorem C39_unique_ids_partial lower lossy hl rel frag cfg p o :
  clean_uris rel frag -> hc_server cfg = false -> tame (hc_comments cfg) p ->
  ~ In (RKey (bs "id")) (page_raw p) -> no_clash (page_requests (normalize_id lower) p) ->
  to_html_string lower lossy hl rel frag cfg p = HOk o ->
  exists ts, scan o = Some ts /\ NoDup (ids ts).
Proof.
  intros [A B] C T N Q E. destruct (page_rendered _ _ _ _ _ _ _ _ A B C T E) as (ts & us & [S1 _ _ _ _ [m I] P]).
  exists ts. split; [exact S1|]. apply (Permutation_NoDup (Permutation_sym (P N))).
  exact (issue_distinct _ _ _ Q I).
Qed.
Print Assumptions C39_unique_ids_partial.
(** One id per request. *)
Theorem C39_all_ids_partial lower lossy hl rel frag cfg p o :
  clean_uris rel frag -> hc_server cfg = false -> tame (hc_comments cfg) p ->
  ~ In (RKey (bs "id")) (page_raw p) ->
  to_html_string lower lossy hl rel frag cfg p = HOk o ->
  exists ts us, scan o = Some ts /\ Permutation (ids ts) us /\
    Forall2 (fun r u => exists s, suffix_ok s /\ u = r ++ s) (page_requests (normalize_id lower) p) us.
Proof.
  intros [A B] C T N E. destruct (page_rendered _ _ _ _ _ _ _ _ A B C T E) as (ts & us & [S1 _ _ _ _ [m I] P]).
  exists ts, us. split; [exact S1|]. split; [exact (P N)|]. revert I. clear.
  generalize (page_requests (normalize_id lower) p) as rs. generalize (@nil (str * nat)) as m0. intros m0 rs.
  revert m0 us. induction rs as [|r rs IH]; intros m0 us I; cbn [issue] in I.
  - injection I as _ <-. constructor.
  - destruct (ensure_unique_total m0 r) as (m1 & u & s & U & -> & Sk). rewrite U in I.
    destruct (issue m1 rs) as [[m2 us']|] eqn:E2; [|discriminate]. injection I as <- <-.
    constructor; [exists s; auto | eapply IH; eauto].
Qed.
Print Assumptions C39_all_ids_partial.
Example C39_case :
  let p := page_of (nl "= a =" ++ nl "== b ==" ++ nl "= a =") in
  tame false p /\ page_requests the_slug p = [bs "a"; bs "b"; bs "a-b"; bs "a"] /\
  no_clash (page_requests the_slug p) /\
  html p = HOk (nl "<h1 id=""a"" class=""header""><a href=""#a"">a</a></h1>" ++
                nl "<div id=""a-b""><h2 id=""b"" class=""header""><a href=""#a-b"">b</a></h2></div>" ++
                nl "<h1 id=""a-1"" class=""header""><a href=""#a-1"">a</a></h1>").
Proof.
  cbv zeta. split; [apply tame_dec; vm_compute; reflexivity|].
  assert (R : page_requests the_slug (page_of (nl "= a =" ++ nl "== b ==" ++ nl "= a =")) = [bs "a"; bs "b"; bs "a-b"; bs "a"])
    by (vm_compute; reflexivity).
  rewrite R. split; [reflexivity|]. split; [|vm_compute; reflexivity].
  intros q r k Hq Hr K1 K2. change (repeats _) with 1 in K2. assert (k = 1) by lia. subst k.
  cbn [In] in Hq, Hr. destruct Hq as [<-|[<-|[<-|[<-|[]]]]], Hr as [<-|[<-|[<-|[<-|[]]]]]; discriminate.
Qed.

(** Without the condition two elements may get one id: by number suffixes
    colliding with texts, and by properties. *)
Definition repeats_id (input id : str) : Prop := exists o ts a b c,
  html (page_of input) = HOk o /\ scan o = Some ts /\ ids ts = a ++ [id] ++ b ++ [id] ++ c.
Theorem C39_refuted_suffix : repeats_id (nl "= a =" ++ nl "= a =" ++ nl "= a-1 =") (bs "a-1").
Proof.
  do 2 eexists. exists [bs "a"], [], []. split; [vm_compute; reflexivity|]. split; vm_compute; reflexivity.
Qed.
Print Assumptions C39_refuted_suffix.
Theorem C39_refuted_counter : repeats_id (nl "= a =" ++ nl "= a =" ++ nl "= a-2 =" ++ nl "= a =") (bs "a-1").
Proof.
  do 2 eexists. exists [bs "a"], [bs "a-2"], []. split; [vm_compute; reflexivity|]. split; vm_compute; reflexivity.
Qed.
Print Assumptions C39_refuted_counter.
Theorem C39_refuted_property : repeats_id (nl "[[x|y|id=""z""]] [[x|y|id=""z""]]") (bs "z").
Proof.
  do 2 eexists. exists [], [], []. split; [vm_compute; reflexivity|]. split; vm_compute; reflexivity.
Qed.
Print Assumptions C39_refuted_property.

(** * C40 *)

(** If no header so far skips a level, a top level header is wrapped with the
    path of its enclosing headers as id, and links to it.  The path is followed
    by a number only if that id was asked for before, and so is the header's
    own id.  Not covered: skipped levels (see the refutation), headers inside
    lists, and the table of contents header, which has no complete id. *)
Theorem C40_path_partial lower lossy hl rel frag cfg pre h reg post o :
  let slug := normalize_id lower in
  let id := slug (container_display (h_content h)) in
  let path := enclosing (h_level h) (history_of slug (page_events pre)) in
  let full := join (bs "-") (path ++ [id]) in
  let seen := page_requests slug pre in
  clean_uris rel frag -> hc_server cfg = false -> tame (hc_comments cfg) pre ->
  h_level h <> 1 \/ str_trim (container_display (h_content h)) <> hc_toc cfg ->
  no_skip None (header_levels (page_events pre) ++ [h_level h]) ->
  to_html_string lower lossy hl rel frag cfg (pre ++ Loc (BHeader h) reg :: post) = HOk o ->
  exists before s1 s2 body after,
    to_html_string lower lossy hl rel frag cfg pre = HOk before /\ suffix_ok s1 /\ suffix_ok s2 /\
    (~ In id seen -> s1 = []) /\
    (path = [] -> o = before ++ head_open (h_level h) (id ++ s1) (id ++ s1) ++ body
                      ++ head_close (h_level h) ++ after) /\
    (path <> [] -> (~ In full (seen ++ [id]) -> s2 = []) /\
       o = before ++ bs "<div id=""" ++ (full ++ s2) ++ bs """>"
           ++ head_open (h_level h) (id ++ s1) (full ++ s2) ++ body
           ++ head_close (h_level h) ++ bs "</div>" ++ after).
Proof.
  cbv zeta. intros [A B] C T NT NS E. rewrite <- (header_path (normalize_id lower) _ _ NS).
  exact (header_text lower lossy hl rel frag cfg A B C pre h reg post o T NT E).
Qed.
Print Assumptions C40_path_partial.
Example C40_case :
  let p := page_of (nl "= a =" ++ nl "== b ==" ++ nl "= c =" ++ nl "== d ==" ++ nl "=== e ===") in
  exists h reg, p = firstn 4 p ++ [Loc (BHeader h) reg] /\ h_level h = 3 /\
  no_skip None (header_levels (page_events (firstn 4 p)) ++ [h_level h]) /\
  enclosing 3 (history_of the_slug (page_events (firstn 4 p))) = [bs "c"; bs "d"] /\
  exists o, html p = HOk o /\ contains (bs "<div id=""c-d-e""><h3 id=""e"" class=""header""><a href=""#c-d-e"">e</a></h3></div>") o.
Proof.
  cbv zeta. do 2 eexists. split; [vm_compute; reflexivity|]. split; [reflexivity|].
  split; [vm_compute; lia|]. split; [vm_compute; reflexivity|]. eexists. split; [vm_compute; reflexivity|].
  exists (nl "<h1 id=""a"" class=""header""><a href=""#a"">a</a></h1>" ++
          nl "<div id=""a-b""><h2 id=""b"" class=""header""><a href=""#a-b"">b</a></h2></div>" ++
          nl "<h1 id=""c"" class=""header""><a href=""#c"">c</a></h1>" ++
          nl "<div id=""c-d""><h2 id=""d"" class=""header""><a href=""#c-d"">d</a></h2></div>"), [b_nl].
  vm_compute. reflexivity.
Qed.
(** A header two levels deeper takes the title of an earlier, unrelated header
    for the level in between. *)
Theorem C40_refuted : exists pre o,
  enclosing 4 (history_of the_slug (page_events pre)) = [bs "b"] /\
  pre = page_of (nl "= a =" ++ nl "=== c ===" ++ nl "= b =") /\
  html (pre ++ page_of (nl "==== d ====")) = HOk o /\ contains (bs "<div id=""b-c-d""><h4 id=""d"" ") o.
Proof.
  do 2 eexists. split; [|split; [reflexivity | split; [vm_compute; reflexivity|]]]; [vm_compute; reflexivity|].
  exists (nl "<h1 id=""a"" class=""header""><a href=""#a"">a</a></h1>" ++
          nl "<div id=""a-c""><h3 id=""c"" class=""header""><a href=""#a-c"">c</a></h3></div>" ++
          nl "<h1 id=""b"" class=""header""><a href=""#b"">b</a></h1>"),
    (nl "class=""header""><a href=""#b-c-d"">d</a></h4></div>").
  vm_compute. reflexivity.
Qed.
Print Assumptions C40_refuted.

(** * C43 *)

(** The page is the template, with its other variables filled in, cut at the
    content marker and joined by the rendered content, whatever that is. *)
Theorem C43_content_verbatim lower lossy hl rel frag read today cfg p o :
  to_html_page lower lossy hl rel frag read today cfg p = HOk o ->
  exists content t within pieces,
    to_html_string lower lossy hl rel frag cfg p = HOk content /\
    template_of cfg read p = Some t /\ page_within_wiki (hc_home cfg) (hc_paths cfg) = Some within /\
    Forall (fun q => ~ contains (bs "%content%") q) pieces /\
    (forall c, fill t (combine (map marker (seq 0 7)) (values_of lossy cfg today p within c)) = join c pieces) /\
    o = join content pieces.
Proof.
  intro E. apply page_filled in E. destruct E as (content & t & within & E1 & E2 & E3 & E4).
  destruct (values_content lossy cfg today p within) as (l & Hl & V).
  destruct (fill_content l t Hl) as (ps & _ & F & H).
  exists content, t, within, ps. split; [exact E1|]. split; [exact E2|]. split; [exact E3|]. split; [exact F|].
  split; [intro c; now rewrite V | now rewrite E4, V].
Qed.
Print Assumptions C43_content_verbatim.
Example C43_case :
  html_page (page_of (nl "text %title% %content%")) =
  HOk (bs "<title>page</title>" ++ nl "<p>text %title% %content%</p>").
Proof. vm_compute. reflexivity. Qed.
(** A template made of literal text and variables is filled with the values of
    its variables, provided no other value than the content has a percent sign;
    the title, date and template file are the last ones the page gives. *)
Theorem C43_variables lower lossy hl rel frag read today cfg p ps o :
  to_html_page lower lossy hl rel frag read today cfg p = HOk o ->
  template_of cfg read p = Some (template_text ps) -> template_ok ps ->
  (forall within content j, j < 6 -> ~ In x25 (nth j (values_of lossy cfg today p within content) [])) ->
  exists content within,
    to_html_string lower lossy hl rel frag cfg p = HOk content /\
    page_within_wiki (hc_home cfg) (hc_paths cfg) = Some within /\
    o = instantiate (values_of lossy cfg today p within content) ps.
Proof.
  intros E Ht T V. apply page_filled in E. destruct E as (content & t & within & E1 & E2 & E3 & E4).
  exists content, within. split; [exact E1|]. split; [exact E3|]. rewrite Ht in E2. injection E2 as <-.
  rewrite E4. apply fill_template; auto.
Qed.
Print Assumptions C43_variables.
Example C43_variables_case :
  let p := page_of (nl "%title First" ++ nl "%title Last" ++ nl "text") in
  let ps := [PLit (bs "<title>"); PVar 0; PLit (bs "</title>"); PVar 6] in
  template_of the_config no_file p = Some (template_text ps) /\ template_ok ps /\
  title_of same the_config p = bs "Last" /\
  html_page p = HOk (bs "<title>Last</title>" ++ [b_nl; b_nl] ++ nl "<p>text</p>").
Proof.
  cbv zeta. split; [vm_compute; reflexivity|]. split.
  - cbn [template_ok]. repeat split; try lia; try (intro; discriminate).
  - split; vm_compute; reflexivity.
Qed.

(** * C70 *)

(** See C43_variables for the values without percent sign.  A title naming a
    marker is itself filled in. *)
Theorem C70_values_partial vals ps :
  length vals = 7 -> (forall j, j < 6 -> ~ In x25 (nth j vals [])) -> template_ok ps ->
  fill (template_text ps) (combine (map marker (seq 0 7)) vals) = instantiate vals ps.
Proof. apply fill_template. Qed.
Print Assumptions C70_values_partial.
Example C70_case :
  fill (bs "%title%: %css%") (combine (map marker (seq 0 7)) (map bs ["T"; "D"; "R"; "W"; "C"; "E"; "X"]%string)) = bs "T: C".
Proof. vm_compute. reflexivity. Qed.
Theorem C70_refuted :
  title_of same the_config (page_of (nl "%title 100 %content%" ++ nl "text")) = bs "100 %content%" /\
  html_page (page_of (nl "%title 100 %content%" ++ nl "text")) =
  HOk (bs "<title>100 " ++ [b_nl] ++ nl "<p>text</p>" ++ bs "</title>" ++ [b_nl] ++ nl "<p>text</p>").
Proof. split; vm_compute; reflexivity. Qed.
Print Assumptions C70_refuted.

(** * C64 *)

(** Read without ids and without the wrappers that only carry one, the HTML of
    a tame page is exactly the picture of the document in [page_look]: its
    elements, texts and links, in order and nothing else. *)
Theorem C64_look_partial lower lossy hl rel frag cfg p o :
  clean_uris rel frag -> hc_server cfg = false -> tame (hc_comments cfg) p ->
  to_html_string lower lossy hl rel frag cfg p = HOk o ->
  exists ts, scan o = Some ts /\
    marks [] ts = page_look (normalize_id lower) lossy (href_of rel frag cfg) cfg p.
Proof.
  intros [A B] C T E. destruct (page_rendered _ _ _ _ _ _ _ _ A B C T E) as (ts & us & F).
  exists ts. split; [exact (pf_scan _ _ _ _ _ _ _ _ _ F) | exact (pf_marks _ _ _ _ _ _ _ _ _ F)].
Qed.
Print Assumptions C64_look_partial.
(** The paragraphs of a blockquote are its unbroken runs of non-empty lines. *)
Theorem C64_stanzas ls gs : stanzas ls gs <-> gs = line_groups ls.
Proof. apply line_groups_stanzas. Qed.
Print Assumptions C64_stanzas.
Example C64_stanzas_case :
  stanzas [[]; bs "a"; bs "b"; []; []; bs "c"] [[bs "a"; bs "b"]; [bs "c"]].
Proof. apply line_groups_stanzas. reflexivity. Qed.
Example C64_case :
  let p := page_of (nl "- [X] a *b*" ++ nl "- c") in
  tame false p /\
  html p = HOk (nl "<ul>" ++ nl "<li class=""done4""><p>a <strong id=""b"">b</strong></p></li>" ++
                nl "<li><p>c</p></li>" ++ nl "</ul>") /\
  page_look the_slug same (href_of rfc_uri_parse rfc_fragment the_config) the_config p =
    tag (bs "ul") [] (tag (bs "li") [(bs "class", bs "done4")]
        (tag (bs "p") [] (text (bs "a ") ++ tag (bs "strong") [] (text (bs "b")))) ++
      tag (bs "li") [] (tag (bs "p") [] (text (bs "c")))).
Proof. cbv zeta. split; [apply tame_dec; vm_compute; reflexivity|]. split; vm_compute; reflexivity. Qed.

(** * C65 *)

(** Rendering a page ends, and succeeds exactly if all its links can be
    resolved and all its code blocks highlighted; an error or panic is due to
    one of them. *)
Theorem C65_outcome lower lossy hl rel frag cfg p :
  match to_html_string lower lossy hl rel frag cfg p with
  | HOk _ => Forall (resolves rel frag cfg) (page_links p) /\ Forall (highlighted hl cfg) (page_codes p)
  | HErr (HeLink r) => exists l, In l (page_links p) /\ resolution rel frag cfg l = Some r /\
                                 r <> RsPanic /\ forall u, r <> RsUri u
  | HErr HeHighlight => exists c, In c (page_codes p) /\ ~ highlighted hl cfg c
  | HErr HeTemplate => False
  | HPanic => exists l, In l (page_links p) /\
                (resolution rel frag cfg l = None \/ resolution rel frag cfg l = Some RsPanic)
  | HDiverge => False
  end.
Proof. exact (page_outcome lower lossy hl rel frag cfg p). Qed.
Print Assumptions C65_outcome.
Theorem C65_succeeds lower lossy hl rel frag cfg p :
  Forall (resolves rel frag cfg) (page_links p) -> Forall (highlighted hl cfg) (page_codes p) ->
  exists o, to_html_string lower lossy hl rel frag cfg p = HOk o.
Proof.
  intros L K. pose proof (page_outcome lower lossy hl rel frag cfg p) as H. unfold outcome in H.
  rewrite Forall_forall in L, K.
  destruct (to_html_string _ _ _ _ _ _ p) as [o|[r| |]| |]; [now exists o| | | | |]; try contradiction; exfalso.
  - destruct H as (l & I & R & _ & N). destruct (L l I) as [u U]. rewrite U in R. injection R as <-. now apply (N u).
  - destruct H as (c & I & N). exact (N (K c I)).
  - destruct H as (l & I & [R|R]); destruct (L l I) as [u U]; congruence.
Qed.
Print Assumptions C65_succeeds.
Example C65_case :
  page_links (page_of (nl "[[other]] {{x.png}}")) <> [] /\
  html (page_of (nl "[[other]] {{x.png}}")) = HOk (nl "<p><a href=""other.html"">other</a> <img src=""x.png"" /></p>") /\
  html (page_of (nl "[[wiki3:other]]")) = HErr (HeLink (RsMissingIndex 3)).
Proof. split; [vm_compute; discriminate|]. split; vm_compute; reflexivity. Qed.

(** * C66 *)

(** If no header so far skips a level and the latest one is the deepest, a tag
    is preceded by an element whose id is the path of the enclosing headers and
    the tag.  Stated for a tag in a paragraph of its own. *)
Theorem C66_tag_path_partial lower lossy hl rel frag cfg pre t r1 r2 post o :
  let slug := normalize_id lower in
  let hist := history_of slug (page_events pre) in
  let full := join (bs "-") (enclosing (deepest hist + 1) hist ++ [slug t]) in
  let seen := page_requests slug pre in
  clean_uris rel frag -> hc_server cfg = false -> tame (hc_comments cfg) pre ->
  (exists l x h', hist = (l, x) :: h' /\ deepest h' <= l) -> no_skip None (header_levels (page_events pre)) ->
  to_html_string lower lossy hl rel frag cfg (pre ++ tag_paragraph t r1 r2 :: post) = HOk o ->
  exists before s1 s2 after,
    to_html_string lower lossy hl rel frag cfg pre = HOk before /\ suffix_ok s1 /\ suffix_ok s2 /\
    (~ In (slug t) seen -> s1 = []) /\ (~ In full (seen ++ [slug t]) -> s2 = []) /\
    o = before ++ bs "<p><span id=""" ++ (full ++ s2) ++ bs """></span><span class=""tag"" id="""
        ++ (slug t ++ s1) ++ bs """>" ++ slug t ++ bs "</span></p>" ++ after.
Proof.
  cbv zeta. intros [A B] C T D NS E.
  rewrite <- (history_levels (normalize_id lower)) in NS. fold (history_of (normalize_id lower) (page_events pre)) in NS.
  apply no_skip_stepwise in NS. destruct NS as [S1 F]. rewrite <- (deepest_stepwise _ S1 F D).
  apply (tag_text lower lossy hl rel frag cfg A B C pre t r1 r2 post o T); [|exact E].
  destruct D as (l & x & h' & -> & _). discriminate.
Qed.
Print Assumptions C66_tag_path_partial.
Example C66_case :
  let pre := page_of (nl "= a =" ++ nl "== b ==") in
  history_of the_slug (page_events pre) = [(2, bs "b"); (1, bs "a")] /\
  exists r1 r2, page_of (nl "= a =" ++ nl "== b ==" ++ nl ":x:") = pre ++ [tag_paragraph (bs "x") r1 r2] /\
  exists o, html (pre ++ [tag_paragraph (bs "x") r1 r2]) = HOk o /\ contains (bs "<span id=""a-b-x""></span>") o.
Proof.
  cbv zeta. split; [vm_compute; reflexivity|]. do 2 eexists. split; [vm_compute; reflexivity|].
  eexists. split; [vm_compute; reflexivity|].
  exists (nl "<h1 id=""a"" class=""header""><a href=""#a"">a</a></h1>" ++
          nl "<div id=""a-b""><h2 id=""b"" class=""header""><a href=""#a-b"">b</a></h2></div>" ++ bs "<p>"),
    (nl "<span class=""tag"" id=""x"">x</span></p>").
  vm_compute. reflexivity.
Qed.
(** Below a new top level header the deeper headers of the previous section
    stay in the path. *)
Theorem C66_refuted : exists pre o,
  pre = page_of (nl "= a =" ++ nl "== b ==" ++ nl "= c =") /\
  enclosing 2 (history_of the_slug (page_events pre)) = [bs "c"] /\
  html (pre ++ page_of (nl ":x:")) = HOk o /\ contains (bs "<span id=""c-b-x""></span><span class=""tag"" id=""x"">") o.
Proof.
  do 2 eexists. split; [reflexivity|]. split; [vm_compute; reflexivity|]. split; [vm_compute; reflexivity|].
  exists (nl "<h1 id=""a"" class=""header""><a href=""#a"">a</a></h1>" ++
          nl "<div id=""a-b""><h2 id=""b"" class=""header""><a href=""#a-b"">b</a></h2></div>" ++
          nl "<h1 id=""c"" class=""header""><a href=""#c"">c</a></h1>" ++ bs "<p>"), (nl "x</span></p>").
  vm_compute. reflexivity.
Qed.
Print Assumptions C66_refuted.

(** * C67 *)

(** A link to a page with an anchor made of the ids of a header and its
    enclosing headers leads to that header: the fragment is an id of the
    rendered target page.  Stated for top level headers that have enclosing
    headers, whose complete id is new. *)
Theorem C67_anchor_partial lower lossy hl rel frag cfg pre h reg post o c w src d u a :
  let slug := normalize_id lower in
  let id := slug (container_display (h_content h)) in
  let path := enclosing (h_level h) (history_of slug (page_events pre)) in
  clean_uris rel frag -> hc_server cfg = false -> tame (hc_comments cfg) pre ->
  no_skip None (header_levels (page_events pre) ++ [h_level h]) ->
  path <> [] -> ~ In (join (bs "-") (path ++ [id])) (page_requests slug pre ++ [id]) ->
  to_html_string lower lossy hl rel frag cfg (pre ++ Loc (BHeader h) reg :: post) = HOk o ->
  is_local d = true -> is_local_anchor d = false -> to_anchor d = Some a -> a = path ++ [id] ->
  frag (join (bs "-") a) = Some (join (bs "-") a) ->
  resolve_link rel frag c w src (LWiki d) = RsUri u ->
  exists f, u_fragment u = Some f /\ contains (bs "id=""" ++ f ++ bs """") o.
Proof.
  cbv zeta. intros [A B] C T NS NP NI E L1 L2 Ha Hp Hf R.
  assert (NT : h_level h <> 1 \/ str_trim (container_display (h_content h)) <> hc_toc cfg).
  { left. intro K. apply NP. rewrite <- (header_path _ _ _ NS), K. reflexivity. }
  destruct (C40_path_partial lower lossy hl rel frag cfg pre h reg post o (conj A B) C T NT NS E)
    as (before & s1 & s2 & body & after & _ & _ & _ & _ & _ & H). destruct (H NP) as [S2 Eo]. rewrite (S2 NI) in Eo.
  exists (join (bs "-") a). split.
  - unfold resolve_link in R. destruct (make_output_path w src (bs "html")) as [so|]; [|discriminate].
    rewrite L1, L2 in R. cbn [andb negb] in R. unfold link_to in R.
    destruct (target_output _ _ _ _ _) as [t|]; [|discriminate]. destruct (rel _) as [v|]; [|discriminate].
    rewrite Ha in R. injection R as <-. cbn [with_fragment u_fragment]. exact Hf.
  - subst a. exists (before ++ bs "<div "). eexists. rewrite Eo, app_nil_r, <- !app_assoc. reflexivity.
Qed.
Print Assumptions C67_anchor_partial.
Example C67_case :
  let pre := page_of (nl "= part =") in
  exists h reg d r, page_of (nl "= part =" ++ nl "== sub ==") = pre ++ [Loc (BHeader h) reg] /\
  page_of (nl "[[page#part#sub]]") = [Loc (BParagraph [[Loc (ILink (LWiki d)) (Region 0 17 1)]]) r] /\
  is_local d = true /\ is_local_anchor d = false /\
  to_anchor d = Some (enclosing (h_level h) (history_of the_slug (page_events pre)) ++
                      [the_slug (container_display (h_content h))]) /\
  html [Loc (BParagraph [[Loc (ILink (LWiki d)) (Region 0 17 1)]]) r] = HOk (nl "<p><a href=""#part-sub"">page#part#sub</a></p>") /\
  exists o, html (pre ++ [Loc (BHeader h) reg]) = HOk o /\ contains (bs "<div id=""part-sub"">") o.
Proof.
  cbv zeta. do 4 eexists. split; [vm_compute; reflexivity|]. split; [vm_compute; reflexivity|].
  split; [vm_compute; reflexivity|]. split; [vm_compute; reflexivity|]. split; [vm_compute; reflexivity|].
  split; [vm_compute; reflexivity|]. eexists. split; [vm_compute; reflexivity|].
  exists (nl "<h1 id=""part"" class=""header""><a href=""#part"">part</a></h1>"),
    (nl "<h2 id=""sub"" class=""header""><a href=""#part-sub"">sub</a></h2></div>"). vm_compute. reflexivity.
Qed.
(** A link to a header named by its text does not lead to it if the text has a
    capital letter or a blank; a link within the page does not either if it
    names enclosing headers. *)
Theorem C67_refuted_text :
  html (page_of (nl "= My Part =" ++ nl "[[page#My Part]]")) =
  HOk (nl "<h1 id=""my-part"" class=""header""><a href=""#my-part"">My Part</a></h1>" ++
       nl "<p><a href=""#My%20Part"">page#My Part</a></p>").
Proof. vm_compute. reflexivity. Qed.
Print Assumptions C67_refuted_text.
Theorem C67_refuted_local :
  html (page_of (nl "= part =" ++ nl "== sub ==" ++ nl "[[#part#sub]]")) =
  HOk (nl "<h1 id=""part"" class=""header""><a href=""#part"">part</a></h1>" ++
       nl "<div id=""part-sub""><h2 id=""sub"" class=""header""><a href=""#part-sub"">sub</a></h2></div>" ++
       nl "<p><a href=""#part%23sub"">#part#sub</a></p>").
Proof. vm_compute. reflexivity. Qed.
Print Assumptions C67_refuted_local.

(** * C68 *)

(** Links are resolved and paths computed in the active wiki of the page; only
    a page without one gets a wiki of its own, rooted at its directory. *)
Theorem C68_active lower lossy hl rel frag cfg p i w :
  pc_index (hc_paths cfg) = Some i -> nth_error (pc_wikis (hc_paths cfg)) i = Some w ->
  forall o, to_html_string lower lossy hl rel frag cfg p = HOk o ->
  forall l, In l (page_links p) ->
  exists src u, strip_prefix (pc_page (hc_paths cfg)) (w_path w) = Some src /\
    resolve_link rel frag (hc_paths cfg) w src l = RsUri u.
Proof.
  intros Hi Hw o E l I. pose proof (page_outcome lower lossy hl rel frag cfg p) as H. rewrite E in H. cbn in H.
  destruct H as [H _]. rewrite Forall_forall in H. destruct (H l I) as [u U]. unfold resolution, page_within_wiki in U.
  rewrite (current_active _ _ _ _ Hi Hw) in U. unfold path_within in U.
  destruct (strip_prefix _ _) as [src|]; [|discriminate]. injection U as U. now exists src, u.
Qed.
Print Assumptions C68_active.
Theorem C68_none home c :
  pc_index c = None \/ (exists i, pc_index c = Some i /\ nth_error (pc_wikis c) i = None) ->
  w_path (current_wiki home c) = match path_parent (pc_page c) with Some d => d | None => [] end.
Proof.
  unfold current_wiki, find_active_wiki, find_wiki_by_index. intros [->|(i & -> & ->)]; reflexivity.
Qed.
Print Assumptions C68_none.
Example C68_case :
  pc_index (hc_paths the_config) = Some 0 /\ page_links (page_of (nl "[[/sub/other]]")) <> [] /\
  html (page_of (nl "[[/sub/other]]")) = HOk (nl "<p><a href=""sub/other.html"">/sub/other</a></p>") /\
  w_path (current_wiki [CRoot] (PathsConfig [the_wiki] None [CRoot; CNorm (bs "x"); CNorm (bs "y.wiki")])) = [CRoot; CNorm (bs "x")].
Proof. split; [reflexivity|]. split; [vm_compute; discriminate|]. split; vm_compute; reflexivity. Qed.

(** * C69 *)

(** The request not to produce HTML is ignored: it changes nothing. *)
Theorem C69_refuted : exists p, In PNoHtml (page_placeholders p) /\
  html_page p = HOk (bs "<title>page</title>" ++ [b_nl] ++ nl "<p>secret</p>").
Proof. exists (page_of (nl "%nohtml" ++ nl "secret")). split; [vm_compute; auto | vm_compute; reflexivity]. Qed.
Print Assumptions C69_refuted.
