(** HTML output: model of /repo/vimwiki-core/src/lang/output/html/{mod,
    formatter,convert}.rs and of [normalize_id] in utils.rs.

    The formatter's [content] is only ever appended to while a page is
    rendered, so a rendering step is a function from the rest of the state to
    the new state and the text appended.  Writing to a [String] cannot fail. *)
From Verif Require Import Base ModelSpan ModelAst ModelTable ModelLink ModelBlock ModelElem ModelPath.

(** * Escaping and ids *)

(** [escape_html] of the external crate voca_rs 1.13: these six characters are
    replaced, everything else is kept. *)
Definition escape_byte (b : byte) : str :=
  match b with
  | x26 => bs "&amp;"
  | x3c => bs "&lt;"
  | x3e => bs "&gt;"
  | x22 => bs "&quot;"
  | x27 => bs "&#x27;"
  | x60 => bs "&#x60;"
  | _ => [b]
  end.
Definition escape_html (s : str) : str := flat_map escape_byte s.

(** [s.split(char::is_whitespace).filter(non-empty)]: the maximal runs without
    Unicode white space.  The fuel is the length of the string. *)
Definition flush (w : str) : list str := match w with [] => [] | _ => [w] end.
Fixpoint words_go (fuel : nat) (w l : str) : list str :=
  match fuel with
  | 0 => flush w
  | S f =>
      match l with
      | [] => flush w
      | b :: l' =>
          match uws_len l with
          | 0 => words_go f (w ++ [b]) l'
          | n => flush w ++ words_go f [] (skipn n l)
          end
      end
  end.
Definition words (l : str) : list str := words_go (S (length l)) [] l.

(** * Configuration (config.rs:35-75, 500-700) *)

Record html_config := HtmlConfig {
  hc_paths : paths_config;      (* wikis, runtime.wiki_index, runtime.page *)
  hc_home : path;               (* the home directory used by the defaults *)
  hc_toc : str;                 (* header.table_of_contents *)
  hc_par_ignore : bool;         (* paragraph.ignore_newline *)
  hc_comments : bool;           (* comment.include *)
  hc_server : bool;             (* code.server_side *)
  hc_template : str;            (* template.text *)
  hc_template_dir : path        (* template.dir *)
}.

(** * Formatter state (formatter.rs:14-34) *)

Record hst := Hst {
  hs_headers : list (nat * str);    (* last_seen_headers *)
  hs_ids : list (str * nat);        (* id_cache *)
  hs_title : option str;
  hs_date : option date;
  hs_template : option str
}.
Definition hst0 : hst := Hst [] [] None None None.

Inductive herror :=
| HeLink (r : resolved)      (* LinkResolutionError *)
| HeHighlight                (* ThemeMissing, theme or syntax set not loaded *)
| HeTemplate.                (* TemplateNotLoaded *)
Inductive hres (A : Type) :=
| HOk (a : A) | HErr (e : herror) | HPanic | HDiverge.
Arguments HOk {A} a.
Arguments HErr {A} e.
Arguments HPanic {A}.
Arguments HDiverge {A}.

(** A rendering step: new state and text appended. *)
Definition hm := hst -> hres (hst * str).
Definition out (s : str) : hm := fun st => HOk (st, s).
Definition ln : hm := out [b_nl].
Definition skip : hm := out [].
Definition hseq (a b : hm) : hm := fun st =>
  match a st with
  | HOk (st1, o1) =>
      match b st1 with
      | HOk (st2, o2) => HOk (st2, o1 ++ o2)
      | HErr e => HErr e | HPanic => HPanic | HDiverge => HDiverge
      end
  | HErr e => HErr e | HPanic => HPanic | HDiverge => HDiverge
  end.
Declare Scope hm_scope.
Notation "a ;; b" := (hseq a b) (at level 61, right associativity) : hm_scope.
Open Scope hm_scope.
Definition each {A} (f : A -> hm) : list A -> hm :=
  fix go (l : list A) : hm :=
    match l with
    | [] => skip
    | x :: l' => f x ;; go l'
    end.

(** formatter.rs:67-83 [insert_header_text], [get_header_text],
    [max_header_level]. *)
Fixpoint lvl_set (k : nat) (v : str) (m : list (nat * str)) : list (nat * str) :=
  match m with
  | [] => [(k, v)]
  | (k', v') :: m' => if k =? k' then (k, v) :: m' else (k', v') :: lvl_set k v m'
  end.
Fixpoint lvl_get (k : nat) (m : list (nat * str)) : option str :=
  match m with
  | [] => None
  | (k', v) :: m' => if k =? k' then Some v else lvl_get k m'
  end.
Definition max_level (m : list (nat * str)) : option nat :=
  match m with
  | [] => None
  | _ => Some (list_max (map fst m))
  end.

(** formatter.rs:87-109 [ensure_unique_id].  The loop is given fuel; running
    out is [None] ([HDiverge]).  Each round of the loop that does not leave it
    makes the id longer and the id is a key of the cache, so there are at most
    as many rounds as keys. *)
Fixpoint id_set (k : str) (v : nat) (m : list (str * nat)) : list (str * nat) :=
  match m with
  | [] => [(k, v)]
  | (k', v') :: m' => if str_eqb k k' then (k, v) :: m' else (k', v') :: id_set k v m'
  end.
Fixpoint id_get (k : str) (m : list (str * nat)) : option nat :=
  match m with
  | [] => None
  | (k', v) :: m' => if str_eqb k k' then Some v else id_get k m'
  end.
Definition dashed (id : str) (n : nat) : str := id ++ bs "-" ++ dec (N.of_nat n).
Fixpoint unique_loop (fuel : nat) (m : list (str * nat)) (id : str) : option (list (str * nat) * str) :=
  match fuel with
  | 0 => None
  | S f =>
      match id_get id m with
      | None => Some (m, id)
      | Some count =>
          let tmp := dashed id (count + 1) in
          match id_get tmp m with
          | None => unique_loop f (id_set id (count + 1) m) tmp
          | Some _ => unique_loop f m (id ++ bs "-1")
          end
      end
  end.
Definition ensure_unique (m : list (str * nat)) (id : str) : option (list (str * nat) * str) :=
  match id_get id m with
  | Some _ => unique_loop (length m + 2) m id
  | None => Some (id_set id 0 m, id)
  end.
Definition set_ids (m : list (str * nat)) (st : hst) : hst :=
  Hst (hs_headers st) m (hs_title st) (hs_date st) (hs_template st).
Definition with_unique (id : str) (k : str -> hm) : hm := fun st =>
  match ensure_unique (hs_ids st) id with
  | None => HDiverge
  | Some (m, u) => k u (set_ids m st)
  end.

(** mod.rs:1257-1274 [build_complete_id]. *)
Definition complete_id (m : list (nat * str)) (level : nat) (id : str) : str :=
  flat_map (fun i => match lvl_get i m with Some t => t ++ bs "-" | None => [] end)
           (seq 1 (level - 1)) ++ id.

Definition insert_header (level : nat) (t : str) : hm := fun st =>
  HOk (Hst (lvl_set level t (hs_headers st)) (hs_ids st) (hs_title st) (hs_date st) (hs_template st), []).
Definition with_headers (k : list (nat * str) -> hm) : hm := fun st => k (hs_headers st) st.

(** formatter.rs:111-113, 123-125, 135-137. *)
Definition set_title (t : str) : hm := fun st =>
  HOk (Hst (hs_headers st) (hs_ids st) (Some t) (hs_date st) (hs_template st), []).
Definition set_date (d : date) : hm := fun st =>
  HOk (Hst (hs_headers st) (hs_ids st) (hs_title st) (Some d) (hs_template st), []).
Definition set_template (t : str) : hm := fun st =>
  HOk (Hst (hs_headers st) (hs_ids st) (hs_title st) (hs_date st) (Some t), []).

Section Html.
(** External behaviour: [str::to_lowercase]; [String::from_utf8_lossy] (the
    identity on valid UTF-8); the whole output of the syntect highlighter for
    a code block, or its failure; uriparse's constructors; the file system
    read of a template file; today's date. *)
Variable lower : str -> str.
Variable lossy : str -> str.
Variable highlight : option str -> list str -> option str.
Variable rel_parse : str -> option uri.
Variable frag_parse : str -> option str.
Variable read_file : path -> option str.
Variable today : date.
Variable cfg : html_config.

(** utils.rs:54-63 [normalize_id]. *)
Definition normalize_id (id : str) : str := escape_html (join (bs "-") (words (lower id))).

(** * Inline elements *)

(** mod.rs:945-964 [Keyword]. *)
Definition keyword_html (k : keyword) : hm :=
  match k with
  | KTodo => out (bs "<span class=""todo"">TODO</span>")
  | _ => out (keyword_display k)
  end.

(** mod.rs:1076-1080, 1086-1090: the attributes made of properties. *)
Definition props_html (p : option (list (str * str))) : hm :=
  match p with
  | Some ps => each (fun kv => out (bs " " ++ fst kv ++ bs "=""" ++ escape_html (snd kv) ++ bs """")) ps
  | None => skip
  end.

(** mod.rs:1117-1123: resolving the link of an element. *)
Definition with_href (l : link) (k : str -> hm) : hm :=
  match page_within_wiki (hc_home cfg) (hc_paths cfg) with
  | None => fun _ => HPanic
  | Some src =>
      match resolve_link rel_parse frag_parse (hc_paths cfg)
              (current_wiki (hc_home cfg) (hc_paths cfg)) src l with
      | RsUri u => k (uri_display u)
      | RsPanic => fun _ => HPanic
      | r => fun _ => HErr (HeLink r)
      end
  end.

(** mod.rs:1065-1082 [write_link] with [use_img_tag]. *)
Definition transclusion_html (d : link_data) : hm :=
  with_href (LTransclusion d) (fun href =>
    out (bs "<img src=""" ++ href ++ bs """")
    ;; match description_or_fallback lossy (LTransclusion d) with
       | Some x => out (bs " alt=""" ++ escape_html (desc_display x) ++ bs """")
       | None => skip
       end
    ;; props_html (ld_props d)
    ;; out (bs " />")).

(** mod.rs:1083-1112 [write_link] without. *)
Definition anchor_html (l : link) : hm :=
  with_href l (fun href =>
    out (bs "<a href=""" ++ href ++ bs """")
    ;; props_html (ld_props (link_get_data l))
    ;; out (bs ">")
    ;; match description_or_fallback lossy l with
       | Some (DescText t) => out (escape_html t)
       | Some (DescTransclusion d) => transclusion_html d
       | None => out href
       end
    ;; out (bs "</a>")).

(** mod.rs:966-1133 [Link]. *)
Definition link_html (l : link) : hm :=
  match l with
  | LTransclusion d => transclusion_html d
  | _ => anchor_html l
  end.

(** mod.rs:881-889, 1153-1161: the empty span in front of bold text and tags
    once a header has been seen. *)
Definition front_span (id : str) : hm :=
  with_headers (fun m =>
    match max_level m with
    | None => skip
    | Some n => with_unique (complete_id m (n + 1) id) (fun u =>
                  out (bs "<span id=""" ++ u ++ bs """></span>"))
    end).

(** mod.rs:864-943 [DecoratedText], [DecoratedTextContent].  [fmts] is the
    rendering of the contents. *)
Definition deco_html (k : deco) (text : str) (body : hm) : hm :=
  match k with
  | Bold =>
      let id := normalize_id text in
      with_unique id (fun u =>
        front_span id
        ;; out (bs "<strong id=""" ++ u ++ bs """>") ;; body ;; out (bs "</strong>"))
  | Italic => out (bs "<em>") ;; body ;; out (bs "</em>")
  | Strikeout => out (bs "<del>") ;; body ;; out (bs "</del>")
  | Superscript => out (bs "<sup><small>") ;; body ;; out (bs "</small></sup>")
  | Subscript => out (bs "<sub><small>") ;; body ;; out (bs "</small></sub>")
  end.
Fixpoint dcontent_html (c : dcontent) : hm :=
  match c with
  | DCText t => out (escape_html t)
  | DCDeco k cs =>
      deco_html k (flat_map (fun x => dcontent_display (l_val x)) cs)
        (each (fun x => dcontent_html (l_val x)) cs)
  | DCKeyword k => keyword_html k
  | DCLink l => link_html l
  end.

(** mod.rs:1146-1171 [Tags]. *)
Definition tag_html (t : str) : hm :=
  let id := normalize_id t in
  with_unique id (fun u =>
    front_span id
    ;; out (bs "<span class=""tag"" id=""" ++ u ++ bs """>" ++ id ++ bs "</span>")).

(** mod.rs:1202-1255 [Comment]. *)
Definition comment_html (c : comment) : hm :=
  if hc_comments cfg then
    match c with
    | CLine t => out (bs "<!-- " ++ t ++ bs " -->")
    | CMulti ls =>
        out (bs "<!--") ;; ln ;; each (fun l => out l ;; ln) ls ;; out (bs "-->")
    end
  else skip.

(** mod.rs:840-862, 1174-1200. *)
Definition inline_html (i : inline) : hm :=
  match i with
  | IText t => out (escape_html t)
  | IDeco k cs =>
      deco_html k (flat_map (fun x => dcontent_display (l_val x)) cs)
        (each (fun x => dcontent_html (l_val x)) cs)
  | IKeyword k => keyword_html k
  | ILink l => link_html l
  | ITags ts => each tag_html ts
  | ICode t => out (bs "<code>" ++ escape_html t ++ bs "</code>")
  | IMath t => out (bs "\(" ++ escape_html t ++ bs "\)")
  | IComment c => comment_html c
  end.
(** mod.rs:829-838 [InlineElementContainer]. *)
Definition container_html (c : container) : hm := each (fun x => inline_html (l_val x)) c.

(** * Blocks *)

(** blockquotes.rs:38-42 [line_groups]. *)
Fixpoint line_groups_go (g : list str) (ls : list str) : list (list str) :=
  match ls with
  | [] => match g with [] => [] | _ => [g] end
  | [] :: ls' => match g with [] => line_groups_go [] ls' | _ => g :: line_groups_go [] ls' end
  | l :: ls' => line_groups_go (g ++ [l]) ls'
  end.
Definition line_groups (ls : list str) : list (list str) := line_groups_go [] ls.

(** mod.rs:88-130 [Blockquote]. *)
Definition blockquote_html (ls : list str) : hm :=
  out (bs "<blockquote>") ;; ln
  ;; (if 1 <? length (line_groups ls)
      then each (fun g => out (bs "<p>" ++ escape_html (join (bs " ") (map str_trim g)) ++ bs "</p>") ;; ln)
                (line_groups ls)
      else each (fun l => out (escape_html l) ;; ln) ls)
  ;; out (bs "</blockquote>").

(** mod.rs:132-172 [DefinitionList], [DefinitionListValue]. *)
Definition deflist_html (d : def_list) : hm :=
  out (bs "<dl>") ;; ln
  ;; each (fun x =>
       out (bs "<dt>") ;; container_html (l_val (td_term (l_val x))) ;; out (bs "</dt>") ;; ln
       ;; each (fun y => out (bs "<dd>") ;; container_html (l_val y) ;; out (bs "</dd>") ;; ln)
            (l_val (td_defs (l_val x)))) d
  ;; out (bs "</dl>").

(** mod.rs:186-266 [Header]. *)
Definition header_html (h : header) : hm :=
  let raw := container_display (h_content h) in
  let id := normalize_id raw in
  let n := dec (N.of_nat (h_level h)) in
  with_unique id (fun u =>
    insert_header (h_level h) id
    ;; if (h_level h =? 1) && str_eqb (str_trim raw) (hc_toc cfg) then
         out (bs "<div class=""toc"">")
         ;; out (bs "<h" ++ n ++ bs " id=""" ++ u ++ bs """>")
         ;; container_html (h_content h)
         ;; out (bs "</h" ++ n ++ bs "></div>")
       else
         with_headers (fun m =>
           let c := complete_id m (h_level h) id in
           let rest (u' : str) :=
             out (bs "<h" ++ n ++ bs " id=""" ++ u ++ bs """ class=""header"">")
             ;; out (bs "<a href=""#" ++ u' ++ bs """>")
             ;; container_html (h_content h)
             ;; out (bs "</a></h" ++ n ++ bs ">") in
           if str_eqb c id then rest u
           else with_unique c (fun u' =>
                  out (bs "<div id=""" ++ u' ++ bs """>") ;; rest u' ;; out (bs "</div>")))).

(** lists/mod.rs:81-85 [is_ordered]. *)
Definition is_ordered_list (items : list (located list_item)) : bool :=
  match items with
  | i :: _ => match li_ty (l_val i) with TOrdered _ => true | _ => false end
  | [] => false
  end.

(** mod.rs:355-377: the opening tag of a list item. *)
Definition todo_open (t : option todo_status) : str :=
  match t with
  | Some TodoIncomplete => bs "<li class=""done0"">"
  | Some TodoPartial1 => bs "<li class=""done1"">"
  | Some TodoPartial2 => bs "<li class=""done2"">"
  | Some TodoPartial3 => bs "<li class=""done3"">"
  | Some TodoComplete => bs "<li class=""done4"">"
  | Some TodoRejected => bs "<li class=""rejected"">"
  | None => bs "<li>"
  end.

(** mod.rs:398-436 [MathBlock]. *)
Definition math_html (m : math_block) : hm :=
  let ls := each (fun l => out (escape_html l) ;; ln) (mb_lines m) in
  match mb_env m with
  | Some env => out (bs "\begin{" ++ env ++ bs "}") ;; ln ;; ls ;; out (bs "\end{" ++ env ++ bs "}")
  | None => out (bs "\[") ;; ln ;; ls ;; out (bs "\]")
  end.

(** mod.rs:438-455 [Placeholder]. *)
Definition placeholder_html (p : placeholder) : hm :=
  match p with
  | PTitle t => set_title t
  | PDate d => set_date d
  | PTemplate t => set_template t
  | _ => skip
  end.

(** mod.rs:457-608 [CodeBlock].  With [server_side] the whole output is the
    highlighter's. *)
Definition code_html (c : code_block) : hm :=
  if hc_server cfg then
    match highlight (cb_lang c) (cb_lines c) with
    | Some s => out s
    | None => fun _ => HErr HeHighlight
    end
  else
    out (bs "<pre>") ;; out (bs "<code")
    ;; match cb_lang c with
       | Some l => out (bs " class=""" ++ l ++ bs """")
       | None => skip
       end
    ;; each (fun kv => out (bs " " ++ fst kv ++ bs "=""" ++ snd kv ++ bs """")) (cb_meta c)
    ;; out (bs ">")
    ;; out (join [b_nl] (map escape_html (cb_lines c)))
    ;; out (bs "</code></pre>").

(** paragraphs.rs:36-49 [is_blank]. *)
Definition is_comment (i : inline) : bool := match i with IComment _ => true | _ => false end.
Definition is_blank (ls : list container) : bool :=
  negb (existsb (fun l => existsb (fun x => negb (is_comment (l_val x))) l) ls).

(** mod.rs:610-678 [Paragraph]; the variable the code names [is_last_line] is
    true for all lines but the last. *)
Fixpoint par_lines (sep : str) (ls : list container) : hm :=
  match ls with
  | [] => skip
  | [l] => container_html l
  | l :: ls' => container_html l ;; out sep ;; par_lines sep ls'
  end.
Definition paragraph_html (ls : list container) : hm :=
  let sep := if hc_par_ignore cfg then bs " " else bs "<br />" in
  if is_blank ls then par_lines sep ls
  else out (bs "<p>") ;; par_lines sep ls ;; out (bs "</p>").

(** mod.rs:680-827 [Table]. *)
Definition span_attr (name : str) (n : nat) : hm :=
  if 1 <? n then out (bs " " ++ name ++ bs "=""" ++ dec (N.of_nat n) ++ bs """") else skip.
Definition cell_html (tag : str) (t : table) (r : nat) (x : nat * located cell) : hm :=
  match l_val (snd x) with
  | CContent c =>
      out (bs "<" ++ tag)
      ;; span_attr (bs "rowspan") (get_cell_rowspan t r (fst x))
      ;; span_attr (bs "colspan") (get_cell_colspan t r (fst x))
      ;; out (bs ">") ;; container_html c ;; out (bs "</" ++ tag ++ bs ">") ;; ln
  | _ => skip
  end.
Definition row_html (tag : str) (t : table) (r : nat) : hm :=
  if row_has_content t r then
    out (bs "<tr>") ;; ln ;; each (cell_html tag t r) (enumerate (row t r)) ;; out (bs "</tr>") ;; ln
  else skip.
Definition section_html (name tag : str) (t : table) (rs : list nat) : hm :=
  match rs with
  | [] => skip
  | _ => out (bs "<" ++ name ++ bs ">") ;; ln ;; each (row_html tag t) rs
         ;; out (bs "</" ++ name ++ bs ">") ;; ln
  end.
Definition table_html (t : table) : hm :=
  out (if t_centered t then bs "<table class=""center"">" else bs "<table>") ;; ln
  ;; section_html (bs "thead") (bs "th") t (header_rows t)
  ;; section_html (bs "tbody") (bs "td") t (body_rows t)
  ;; out (bs "</table>").

(** mod.rs:71-86 [BlockElement], 268-396 [List], [ListItem],
    [ListItemContents]. *)
Fixpoint block_html (b : block) : hm :=
  match b with
  | BBlockquote ls => blockquote_html ls
  | BDefList d => deflist_html d
  | BDivider => out (bs "<hr />")
  | BHeader h => header_html h
  | BList items =>
      out (if is_ordered_list items then bs "<ol>" else bs "<ul>") ;; ln
      ;; each (fun i => item_html (l_val i) ;; ln) items
      ;; out (if is_ordered_list items then bs "</ol>" else bs "</ul>")
  | BMath m => math_html m
  | BParagraph ls => paragraph_html ls
  | BPlaceholder p => placeholder_html p
  | BCode c => code_html c
  | BTable t => table_html t
  end
with item_html (i : list_item) : hm :=
  match i with
  | ListItem _ _ _ contents todo =>
      out (todo_open todo) ;; each (fun x => block_html (l_val x)) contents ;; out (bs "</li>")
  end.

(** mod.rs:40-49 [Page]. *)
Definition page_html (p : page) : hm := each (fun x => block_html (l_val x) ;; ln) p.

(** convert.rs:12-20 [to_html_string]. *)
Definition to_html_string (p : page) : hres str :=
  match page_html p hst0 with
  | HOk (_, o) => HOk o
  | HErr e => HErr e | HPanic => HPanic | HDiverge => HDiverge
  end.

(** convert.rs:71-103: the substitutions, in order. *)
Definition substitutions (title : str) (d : date) (content wiki_path : str) : list (str * str) :=
  [ (bs "%title%", title);
    (bs "%date%", date_display d);
    (bs "%root_path%", root_text (hc_paths cfg));
    (bs "%wiki_path%", wiki_path);
    (bs "%css%", w_css (current_wiki (hc_home cfg) (hc_paths cfg)));
    (bs "%encoding%", bs "utf-8");
    (bs "%content%", content) ].
Definition fill (template : str) (l : list (str * str)) : str :=
  fold_left (fun t kv => replace_all (fst kv) (snd kv) t) l template.

(** convert.rs:31-106 [to_html_page]. *)
Definition to_html_page (p : page) : hres str :=
  match page_html p hst0 with
  | HOk (st, content) =>
      let title := match hs_title st with
                   | Some t => t
                   | None => match file_stem (pc_page (hc_paths cfg)) with
                             | Some s => lossy s
                             | None => []
                             end
                   end in
      let d := match hs_date st with Some d => d | None => today end in
      let template :=
        match hs_template st with
        | None => Some (hc_template cfg)
        | Some t => read_file (path_join (hc_template_dir cfg) (path_of_str t))
        end in
      match template with
      | None => HErr HeTemplate
      | Some t =>
          match page_within_wiki (hc_home cfg) (hc_paths cfg) with
          | None => HPanic
          | Some q => HOk (fill t (substitutions title d content (path_to_uri_string q)))
          end
      end
  | HErr e => HErr e | HPanic => HPanic | HDiverge => HDiverge
  end.
End Html.
