(** What the HTML properties are about, stated on the produced text: an HTML
    scanner, nesting of tags, ids, the anchors of a page and the enclosing
    headers of a position. *)
From Verif Require Import Base ModelSpan ModelAst ModelTable ModelLink ModelElem ModelPath ModelHtml.

(** * Scanning HTML text *)

Inductive token :=
| TkText (s : str)
| TkOpen (name : str) (attrs : list (str * str))
| TkVoid (name : str) (attrs : list (str * str))
| TkClose (name : str)
| TkComment (s : str).

Fixpoint until (stop : byte -> bool) (l : str) : str * str :=
  match l with
  | [] => ([], [])
  | b :: l' => if stop b then ([], l) else let '(a, r) := until stop l' in (b :: a, r)
  end.
Definition is_b (x b : byte) : bool := beqb x b.

(** The attributes of a tag up to and including its end: a list of
    [ name="value"], then [>] or [ />]. *)
Fixpoint scan_attrs (fuel : nat) (l : str) : option (list (str * str) * bool * str) :=
  match fuel with
  | 0 => None
  | S f =>
      if starts_with (bs ">") l then Some ([], false, skipn 1 l)
      else if starts_with (bs " />") l then Some ([], true, skipn 3 l)
      else if starts_with (bs " ") l then
        let '(k, r) := until (is_b x3d) (skipn 1 l) in
        if negb (str_eqb k []) && starts_with (bs "=""") r then
          let '(v, r) := until (is_b x22) (skipn 2 r) in
          if starts_with (bs """") r then
            match scan_attrs f (skipn 1 r) with
            | Some (kvs, e, r) => Some ((k, v) :: kvs, e, r)
            | None => None
            end
          else None
        else None
      else None
  end.

(** The text of a comment up to and including its end. *)
Fixpoint scan_comment (l : str) : option (str * str) :=
  match l with
  | [] => None
  | b :: l' =>
      if starts_with (bs "-->") l then Some ([], skipn 3 l)
      else match scan_comment l' with
           | Some (c, r) => Some (b :: c, r)
           | None => None
           end
  end.

Fixpoint scan_go (fuel : nat) (l : str) : option (list token) :=
  match fuel with
  | 0 => None
  | S f =>
      match l with
      | [] => Some []
      | _ =>
          if starts_with (bs "</") l then
            let '(n, r) := until (is_b x3e) (skipn 2 l) in
            if negb (str_eqb n []) && starts_with (bs ">") r
            then option_map (cons (TkClose n)) (scan_go f (skipn 1 r)) else None
          else if starts_with (bs "<!--") l then
            match scan_comment (skipn 4 l) with
            | Some (c, r) => option_map (cons (TkComment c)) (scan_go f r)
            | None => None
            end
          else if starts_with (bs "<") l then
            let '(n, r) := until (fun b => is_b x3e b || is_b x20 b) (skipn 1 l) in
            if str_eqb n [] then None
            else match scan_attrs (S (length r)) r with
                 | Some (kvs, e, r) =>
                     option_map (cons (if e then TkVoid n kvs else TkOpen n kvs)) (scan_go f r)
                 | None => None
                 end
          else
            let '(t, r) := until (is_b x3c) l in
            option_map (cons (TkText t)) (scan_go f r)
      end
  end.
Definition scan (l : str) : option (list token) := scan_go (S (length l)) l.

(** Every opened tag is closed, the last opened first. *)
Fixpoint nested (stack : list str) (ts : list token) : bool :=
  match ts with
  | [] => match stack with [] => true | _ => false end
  | TkOpen n _ :: ts' => nested (n :: stack) ts'
  | TkClose n :: ts' =>
      match stack with
      | m :: stack' => str_eqb n m && nested stack' ts'
      | [] => false
      end
  | _ :: ts' => nested stack ts'
  end.

Definition tk_attrs (t : token) : list (str * str) :=
  match t with TkOpen _ a | TkVoid _ a => a | _ => [] end.
Definition tk_name (t : token) : option str :=
  match t with TkOpen n _ | TkVoid n _ | TkClose n => Some n | _ => None end.
Definition attr_ids (a : list (str * str)) : list str :=
  map snd (filter (fun kv => str_eqb (fst kv) (bs "id")) a).
Definition ids (ts : list token) : list str := flat_map (fun t => attr_ids (tk_attrs t)) ts.
(** The characters between the tags. *)
Definition texts (ts : list token) : str :=
  flat_map (fun t => match t with TkText s => s | _ => [] end) ts.

(** The elements the generator produces. *)
Definition plain_names : list str :=
  map bs ["blockquote"; "p"; "dl"; "dt"; "dd"; "hr"; "div"; "a"; "ol"; "ul"; "li"; "pre"; "code";
          "br"; "table"; "thead"; "tbody"; "tr"; "th"; "td"; "strong"; "span"; "em"; "del"; "sup";
          "sub"; "small"; "img"]%string.
Definition generator_name (n : str) : Prop :=
  In n plain_names \/ exists k, n = bs "h" ++ dec (N.of_nat k).
Definition plain_attrs : list str :=
  map bs ["id"; "class"; "href"; "src"; "alt"; "rowspan"; "colspan"]%string.

(** * Reading escaped text *)

(** What a browser shows for text with these character references. *)
Definition entities : list (str * byte) :=
  [(bs "&amp;", x26); (bs "&lt;", x3c); (bs "&gt;", x3e); (bs "&quot;", x22); (bs "&#x27;", x27); (bs "&#x60;", x60)].
Fixpoint decode_go (skipped : nat) (l : str) : str :=
  match l with
  | [] => []
  | b :: l' =>
      match skipped with
      | S k => decode_go k l'
      | 0 => match find (fun e => starts_with (fst e) l) entities with
             | Some (name, c) => c :: decode_go (length name - 1) l'
             | None => b :: decode_go 0 l'
             end
      end
  end.
Definition decode (l : str) : str := decode_go 0 l.

(** * The parts of a page that are written without escaping *)

Definition free (bad s : str) : Prop := Forall (fun b => ~ In b bad) s.
Definition markup : str := bs "<>".
Definition attr_markup : str := bs "<>""".
(** Characters that cannot be part of an attribute name. *)
Definition key_markup : str := bs " ""'<>/=" ++ [x09; x0a; x0c; x0d].

Inductive raw :=
| RKey (k : str)           (* attribute name *)
| RAttr (v : str)          (* attribute value: language, metadata value *)
| RText (t : str)          (* math environment *)
| RUri (u : uri)           (* link target *)
| RComment (t : str).      (* comment line *)

Definition uri_parts (u : uri) : list str :=
  match u_scheme u with Some s => [s] | None => [] end
  ++ match u_authority u with Some s => [s] | None => [] end
  ++ u_segs u
  ++ match u_query u with Some s => [s] | None => [] end
  ++ match u_fragment u with Some s => [s] | None => [] end.
Definition uri_clean (u : uri) : Prop := Forall (free attr_markup) (uri_parts u).

Definition raw_ok (comments : bool) (r : raw) : Prop :=
  match r with
  | RKey k => k <> [] /\ free key_markup k
  | RAttr v => free attr_markup v
  | RText t => free markup t
  | RUri u => uri_clean u
  | RComment t => comments = true -> free (bs ">") t
  end.

Definition data_raw (d : link_data) : list raw :=
  RUri (ld_uri d) :: match ld_props d with Some ps => map (fun kv => RKey (fst kv)) ps | None => [] end.
Definition link_raw (l : link) : list raw :=
  data_raw (link_get_data l) ++
  match ld_desc (link_get_data l) with
  | Some (DescTransclusion d) => data_raw d
  | _ => []
  end.
Fixpoint dcontent_raw (c : dcontent) : list raw :=
  match c with
  | DCDeco _ cs => flat_map (fun x => dcontent_raw (l_val x)) cs
  | DCLink l => link_raw l
  | _ => []
  end.
Definition inline_raw (i : inline) : list raw :=
  match i with
  | IDeco _ cs => flat_map (fun x => dcontent_raw (l_val x)) cs
  | ILink l => link_raw l
  | IComment (CLine t) => [RComment t]
  | IComment (CMulti ls) => map RComment ls
  | _ => []
  end.
Definition container_raw (c : container) : list raw := flat_map (fun x => inline_raw (l_val x)) c.
Definition cell_raw (c : cell) : list raw :=
  match c with CContent x => container_raw x | _ => [] end.
Fixpoint block_raw (b : block) : list raw :=
  match b with
  | BDefList d =>
      flat_map (fun x => container_raw (l_val (td_term (l_val x))) ++
                         flat_map (fun y => container_raw (l_val y)) (l_val (td_defs (l_val x)))) d
  | BHeader h => container_raw (h_content h)
  | BList items => flat_map (fun i => item_raw (l_val i)) items
  | BMath m => match mb_env m with Some e => [RText e] | None => [] end
  | BParagraph ls => flat_map container_raw ls
  | BCode c =>
      match cb_lang c with Some l => [RAttr l] | None => [] end
      ++ flat_map (fun kv => [RKey (fst kv); RAttr (snd kv)]) (cb_meta c)
  | BTable t => flat_map (fun x => cell_raw (l_val (snd x))) (t_cells t)
  | _ => []
  end
with item_raw (i : list_item) : list raw :=
  match i with ListItem _ _ _ contents _ => flat_map (fun x => block_raw (l_val x)) contents end.
Definition page_raw (p : page) : list raw := flat_map (fun x => block_raw (l_val x)) p.
Definition tame (comments : bool) (p : page) : Prop := Forall (raw_ok comments) (page_raw p).

(** * Anchors of a page, in document order *)

Inductive event :=
| EvHeader (level : nat) (text : str)
| EvAnchor (text : str).          (* bold text or a tag *)

Fixpoint dcontent_events (c : dcontent) : list event :=
  match c with
  | DCDeco k cs =>
      match k with
      | Bold => [EvAnchor (flat_map (fun x => dcontent_display (l_val x)) cs)]
      | _ => []
      end ++ flat_map (fun x => dcontent_events (l_val x)) cs
  | _ => []
  end.
Definition inline_events (i : inline) : list event :=
  match i with
  | IDeco k cs => dcontent_events (DCDeco k cs)
  | ITags ts => map EvAnchor ts
  | _ => []
  end.
Definition container_events (c : container) : list event :=
  flat_map (fun x => inline_events (l_val x)) c.
Definition cell_events (c : cell) : list event :=
  match c with CContent x => container_events x | _ => [] end.
Fixpoint block_events (b : block) : list event :=
  match b with
  | BDefList d =>
      flat_map (fun x => container_events (l_val (td_term (l_val x))) ++
                         flat_map (fun y => container_events (l_val y)) (l_val (td_defs (l_val x)))) d
  | BHeader h => EvHeader (h_level h) (container_display (h_content h)) :: container_events (h_content h)
  | BList items => flat_map (fun i => item_events (l_val i)) items
  | BParagraph ls => flat_map container_events ls
  | BTable t =>
      flat_map (fun r => flat_map (fun x => cell_events (l_val x)) (row t r))
               (header_rows t ++ body_rows t)
  | _ => []
  end
with item_events (i : list_item) : list event :=
  match i with ListItem _ _ _ contents _ => flat_map (fun x => block_events (l_val x)) contents end.
Definition page_events (p : page) : list event := flat_map (fun x => block_events (l_val x)) p.

(** * Links of a page, in document order *)

Definition link_links (l : link) : list link :=
  l :: match l, ld_desc (link_get_data l) with
       | LTransclusion _, _ => []
       | _, Some (DescTransclusion d) => [LTransclusion d]
       | _, _ => []
       end.
Fixpoint dcontent_links (c : dcontent) : list link :=
  match c with
  | DCDeco _ cs => flat_map (fun x => dcontent_links (l_val x)) cs
  | DCLink l => link_links l
  | _ => []
  end.
Definition inline_links (i : inline) : list link :=
  match i with
  | IDeco k cs => dcontent_links (DCDeco k cs)
  | ILink l => link_links l
  | _ => []
  end.
Definition container_links (c : container) : list link := flat_map (fun x => inline_links (l_val x)) c.
Definition cell_links (c : cell) : list link :=
  match c with CContent x => container_links x | _ => [] end.
Fixpoint block_links (b : block) : list link :=
  match b with
  | BDefList d =>
      flat_map (fun x => container_links (l_val (td_term (l_val x))) ++
                         flat_map (fun y => container_links (l_val y)) (l_val (td_defs (l_val x)))) d
  | BHeader h => container_links (h_content h)
  | BList items => flat_map (fun i => item_links (l_val i)) items
  | BParagraph ls => flat_map container_links ls
  | BTable t =>
      flat_map (fun r => flat_map (fun x => cell_links (l_val x)) (row t r))
               (header_rows t ++ body_rows t)
  | _ => []
  end
with item_links (i : list_item) : list link :=
  match i with ListItem _ _ _ contents _ => flat_map (fun x => block_links (l_val x)) contents end.
Definition page_links (p : page) : list link := flat_map (fun x => block_links (l_val x)) p.
(** The highlighter is only asked about code blocks. *)
Fixpoint block_codes (b : block) : list code_block :=
  match b with
  | BCode c => [c]
  | BList items => flat_map (fun i => item_codes (l_val i)) items
  | _ => []
  end
with item_codes (i : list_item) : list code_block :=
  match i with ListItem _ _ _ contents _ => flat_map (fun x => block_codes (l_val x)) contents end.
Definition page_codes (p : page) : list code_block := flat_map (fun x => block_codes (l_val x)) p.

(** The placeholders of a page, in document order. *)
Fixpoint block_placeholders (b : block) : list placeholder :=
  match b with
  | BPlaceholder p => [p]
  | BList items => flat_map (fun i => item_placeholders (l_val i)) items
  | _ => []
  end
with item_placeholders (i : list_item) : list placeholder :=
  match i with ListItem _ _ _ contents _ => flat_map (fun x => block_placeholders (l_val x)) contents end.
Definition page_placeholders (p : page) : list placeholder := flat_map (fun x => block_placeholders (l_val x)) p.
(** The last one that gives a value. *)
Fixpoint last_of {A B} (f : A -> option B) (l : list A) : option B :=
  match l with
  | [] => None
  | x :: l' => match last_of f l' with Some y => Some y | None => f x end
  end.
Definition page_title (p : page) : option str :=
  last_of (fun x => match x with PTitle t => Some t | _ => None end) (page_placeholders p).
Definition page_date (p : page) : option date :=
  last_of (fun x => match x with PDate d => Some d | _ => None end) (page_placeholders p).
Definition page_template (p : page) : option str :=
  last_of (fun x => match x with PTemplate t => Some t | _ => None end) (page_placeholders p).

(** A history: the headers passed, the latest first, as level and id. *)
Definition history := list (nat * str).
(** The latest header of a level. *)
Fixpoint latest (level : nat) (h : history) : option str :=
  match h with
  | [] => None
  | (l, t) :: h' => if l =? level then Some t else latest level h'
  end.
Definition deepest (h : history) : nat := list_max (map fst h).

(** The headers enclosing a position at the given level, outermost first: the
    nearest earlier header of a smaller level, and what encloses that. *)
Fixpoint enclosing (level : nat) (h : history) : list str :=
  match h with
  | [] => []
  | (l, t) :: h' => if l <? level then enclosing l h' ++ [t] else enclosing level h'
  end.

(** The latest headers of all levels below [level], outermost first. *)
Definition latest_below (level : nat) (h : history) : list str :=
  flat_map (fun l => match latest l h with Some t => [t] | None => [] end) (seq 1 (level - 1)).

Section Requests.
Variable slug : str -> str.
(** The ids a page asks for: for a header its own id, and the dash separated
    path if it has one; for bold text and tags likewise, the path being that of
    a position below all levels seen so far. *)
Definition event_requests (h : history) (e : event) : list str :=
  match e with
  | EvHeader level t =>
      slug t :: match latest_below level h with
                | [] => []
                | path => [join (bs "-") (path ++ [slug t])]
                end
  | EvAnchor t =>
      slug t :: match h with
                | [] => []
                | _ => [join (bs "-") (latest_below (deepest h + 1) h ++ [slug t])]
                end
  end.
Definition event_history (h : history) (e : event) : history :=
  match e with EvHeader level t => (level, slug t) :: h | EvAnchor _ => h end.
Fixpoint requests (h : history) (es : list event) : list str :=
  match es with
  | [] => []
  | e :: es' => event_requests h e ++ requests (event_history h e) es'
  end.
Definition page_requests (p : page) : list str := requests [] (page_events p).
Definition history_of (es : list event) : history := fold_left event_history es [].
End Requests.

(** * What a page looks like, ids aside *)

(** Elements, characters and comments in order.  Ids, references to ids of the
    same page and the wrappers that only carry an id are left out; so are line
    ends outside of [pre]. *)
Inductive mark :=
| MOpen (name : str) (attrs : list (str * str))
| MClose (name : str)
| MVoid (name : str) (attrs : list (str * str))
| MChar (b : byte)
| MComment (s : str).
Inductive kind := Shown | Hidden | Pre.
Definition shown (a : list (str * str)) : list (str * str) :=
  filter (fun kv => negb (str_eqb (fst kv) (bs "id")) &&
                    negb (str_eqb (fst kv) (bs "href") && starts_with (bs "#") (snd kv))) a.
Definition kind_of (n : str) (a : list (str * str)) : kind :=
  if str_eqb n (bs "pre") then Pre
  else if str_eqb n (bs "div") || str_eqb n (bs "span") then
    match shown a with [] => Hidden | _ => Shown end
  else Shown.
Definition chars (s : str) : list mark := map MChar (filter (fun b => negb (beqb b b_nl)) s).
Definition in_pre (stack : list kind) : bool :=
  existsb (fun k => match k with Pre => true | _ => false end) stack.
Fixpoint marks (stack : list kind) (ts : list token) : list mark :=
  match ts with
  | [] => []
  | TkText s :: ts' => (if in_pre stack then map MChar s else chars s) ++ marks stack ts'
  | TkOpen n a :: ts' =>
      match kind_of n a with Hidden => [] | _ => [MOpen n (shown a)] end
      ++ marks (kind_of n a :: stack) ts'
  | TkVoid n a :: ts' => MVoid n (shown a) :: marks stack ts'
  | TkClose n :: ts' =>
      match stack with Hidden :: _ => [] | _ => [MClose n] end ++ marks (tl stack) ts'
  | TkComment s :: ts' => MComment s :: marks stack ts'
  end.

Definition tag (n : str) (a : list (str * str)) (body : list mark) : list mark :=
  MOpen n (shown a) :: body ++ [MClose n].
Definition text (s : str) : list mark := chars (escape_html s).

Section Look.
(** Ids of tags, texts of links without description, where links lead. *)
Variable slug : str -> str.
Variable lossy : str -> str.
Variable href : link -> str.
Variable cfg : html_config.

Definition prop_attrs (p : option (list (str * str))) : list (str * str) :=
  match p with Some ps => map (fun kv => (fst kv, escape_html (snd kv))) ps | None => [] end.
Definition image_look (d : link_data) : list mark :=
  [MVoid (bs "img") (shown
     ((bs "src", href (LTransclusion d))
      :: match ld_desc d with Some x => [(bs "alt", escape_html (desc_display x))] | None => [] end
      ++ prop_attrs (ld_props d)))].
Definition link_look (l : link) : list mark :=
  match l with
  | LTransclusion d => image_look d
  | _ =>
      tag (bs "a") ((bs "href", href l) :: prop_attrs (ld_props (link_get_data l)))
        match ld_desc (link_get_data l) with
        | Some (DescText t) => text t
        | Some (DescTransclusion d) => image_look d
        | None =>
            match l with
            | LRaw _ => chars (href l)
            | LDiary dt _ => text (bs "diary:" ++ date_display dt)
            | _ => text (lossy (percent_decode (uri_display (ld_uri (link_get_data l)))))
            end
        end
  end.
Definition keyword_look (k : keyword) : list mark :=
  match k with
  | KTodo => tag (bs "span") [(bs "class", bs "todo")] (text (bs "TODO"))
  | KDone => text (bs "DONE") | KStarted => text (bs "STARTED") | KFixme => text (bs "FIXME")
  | KFixed => text (bs "FIXED") | KXxx => text (bs "XXX")
  end.
Definition deco_look (k : deco) (body : list mark) : list mark :=
  match k with
  | Bold => tag (bs "strong") [] body
  | Italic => tag (bs "em") [] body
  | Strikeout => tag (bs "del") [] body
  | Superscript => tag (bs "sup") [] (tag (bs "small") [] body)
  | Subscript => tag (bs "sub") [] (tag (bs "small") [] body)
  end.
Fixpoint dcontent_look (c : dcontent) : list mark :=
  match c with
  | DCText t => text t
  | DCDeco k cs => deco_look k (flat_map (fun x => dcontent_look (l_val x)) cs)
  | DCKeyword k => keyword_look k
  | DCLink l => link_look l
  end.
Definition inline_look (i : inline) : list mark :=
  match i with
  | IText t => text t
  | IDeco k cs => dcontent_look (DCDeco k cs)
  | IKeyword k => keyword_look k
  | ILink l => link_look l
  | ITags ts => flat_map (fun t => tag (bs "span") [(bs "class", bs "tag")] (chars (slug t))) ts
  | ICode t => tag (bs "code") [] (text t)
  | IMath t => chars (bs "\(") ++ text t ++ chars (bs "\)")
  | IComment c =>
      if hc_comments cfg then
        match c with
        | CLine t => [MComment (bs " " ++ t ++ bs " ")]
        | CMulti ls => [MComment ([b_nl] ++ flat_map (fun l => l ++ [b_nl]) ls)]
        end
      else []
  end.
Definition container_look (c : container) : list mark := flat_map (fun x => inline_look (l_val x)) c.

(** The lines of a paragraph, with a blank or a line break between two. *)
Fixpoint between (sep : list mark) (ls : list (list mark)) : list mark :=
  match ls with
  | [] => []
  | [l] => l
  | l :: ls' => l ++ sep ++ between sep ls'
  end.
Definition only_comments (ls : list container) : bool :=
  forallb (forallb (fun x => match l_val x with IComment _ => true | _ => false end)) ls.
Definition head_name (level : nat) : str := bs "h" ++ dec (N.of_nat level).
Definition span_look (name : str) (n : nat) : list (str * str) :=
  if 1 <? n then [(name, dec (N.of_nat n))] else [].
Definition cell_look (n : str) (t : table) (r c : nat) (x : located cell) : list mark :=
  match l_val x with
  | CContent y => tag n (span_look (bs "rowspan") (get_cell_rowspan t r c)
                         ++ span_look (bs "colspan") (get_cell_colspan t r c)) (container_look y)
  | _ => []
  end.
Definition row_look (n : str) (t : table) (r : nat) : list mark :=
  if existsb (fun x => is_content (l_val x)) (row t r)
  then tag (bs "tr") [] (flat_map (fun x => cell_look n t r (fst x) (snd x))
                           (combine (seq 0 (length (row t r))) (row t r)))
  else [].
Definition rows_look (group n : str) (t : table) (rs : list nat) : list mark :=
  match rs with [] => [] | _ => tag group [] (flat_map (row_look n t) rs) end.
Definition todo_class (t : option todo_status) : list (str * str) :=
  match t with
  | None => []
  | Some s => [(bs "class", match s with
                            | TodoIncomplete => bs "done0" | TodoPartial1 => bs "done1"
                            | TodoPartial2 => bs "done2" | TodoPartial3 => bs "done3"
                            | TodoComplete => bs "done4" | TodoRejected => bs "rejected"
                            end)]
  end.
(** [gs] are the stanzas of [ls]: its unbroken runs of non-empty lines. *)
Inductive stanzas : list str -> list (list str) -> Prop :=
| stanzas_nil : stanzas [] []
| stanzas_blank ls gs : stanzas ls gs -> stanzas ([] :: ls) gs
| stanzas_last g : g <> [] -> ~ In [] g -> stanzas g [g]
| stanzas_more g ls gs : g <> [] -> ~ In [] g -> stanzas ls gs -> stanzas (g ++ [] :: ls) (g :: gs).

Fixpoint block_look (b : block) : list mark :=
  match b with
  | BBlockquote ls =>
      tag (bs "blockquote") []
        (if 1 <? length (line_groups ls)
         then flat_map (fun g => tag (bs "p") [] (text (join (bs " ") (map str_trim g)))) (line_groups ls)
         else flat_map text ls)
  | BDefList d =>
      tag (bs "dl") []
        (flat_map (fun x => tag (bs "dt") [] (container_look (l_val (td_term (l_val x)))) ++
                            flat_map (fun y => tag (bs "dd") [] (container_look (l_val y)))
                                     (l_val (td_defs (l_val x)))) d)
  | BDivider => [MVoid (bs "hr") []]
  | BHeader h =>
      let body := container_look (h_content h) in
      if (h_level h =? 1) && str_eqb (str_trim (container_display (h_content h))) (hc_toc cfg)
      then tag (bs "div") [(bs "class", bs "toc")] (tag (head_name (h_level h)) [] body)
      else tag (head_name (h_level h)) [(bs "class", bs "header")] (tag (bs "a") [] body)
  | BList items =>
      let ordered := match items with
                     | i :: _ => match li_ty (l_val i) with TOrdered _ => true | _ => false end
                     | [] => false
                     end in
      tag (if ordered then bs "ol" else bs "ul") [] (flat_map (fun i => item_look (l_val i)) items)
  | BMath m =>
      let '(a, z) := match mb_env m with
                     | Some e => (bs "\begin{" ++ e ++ bs "}", bs "\end{" ++ e ++ bs "}")
                     | None => (bs "\[", bs "\]")
                     end in
      chars a ++ flat_map text (mb_lines m) ++ chars z
  | BParagraph ls =>
      let body := between (if hc_par_ignore cfg then chars (bs " ") else [MVoid (bs "br") []])
                          (map container_look ls) in
      if only_comments ls then body else tag (bs "p") [] body
  | BPlaceholder _ => []
  | BCode c =>
      tag (bs "pre") []
        (tag (bs "code") (match cb_lang c with Some l => [(bs "class", l)] | None => [] end ++ cb_meta c)
           (map MChar (join [b_nl] (map escape_html (cb_lines c)))))
  | BTable t =>
      tag (bs "table") (if t_centered t then [(bs "class", bs "center")] else [])
        (rows_look (bs "thead") (bs "th") t (header_rows t) ++
         rows_look (bs "tbody") (bs "td") t (body_rows t))
  end
with item_look (i : list_item) : list mark :=
  match i with
  | ListItem _ _ _ contents todo =>
      tag (bs "li") (todo_class todo) (flat_map (fun x => block_look (l_val x)) contents)
  end.
Definition page_look (p : page) : list mark := flat_map (fun x => block_look (l_val x)) p.
End Look.

(** * Handing out ids *)

(** A sequence of calls of [ensure_unique_id]: the ids handed out. *)
Fixpoint issue (m : list (str * nat)) (rs : list str) : option (list (str * nat) * list str) :=
  match rs with
  | [] => Some (m, [])
  | r :: rs' =>
      match ensure_unique m r with
      | Some (m1, u) =>
          match issue m1 rs' with
          | Some (m2, us) => Some (m2, u :: us)
          | None => None
          end
      | None => None
      end
  end.

(** How many requests ask for an id asked for before. *)
Fixpoint repeats (l : list str) : nat :=
  match l with
  | [] => 0
  | x :: l' => (if existsb (str_eqb x) l' then 1 else 0) + repeats l'
  end.
(** No id asked for is another one with a number up to the number of
    repetitions. *)
Definition no_clash (rs : list str) : Prop :=
  forall q r k, In q rs -> In r rs -> 1 <= k -> k <= repeats rs ->
    r <> q ++ bs "-" ++ dec (N.of_nat k).

(** Levels that never skip: each header is at most one level below the
    previous one. *)
Fixpoint no_skip (prev : option nat) (levels : list nat) : Prop :=
  match levels with
  | [] => True
  | l :: ls => 1 <= l /\ match prev with Some p => l <= p + 1 | None => True end /\ no_skip (Some l) ls
  end.
Definition header_levels (es : list event) : list nat :=
  flat_map (fun e => match e with EvHeader l _ => [l] | _ => [] end) es.

(** * Templates *)

(** A template as literal text and variables, by their place in the list of
    substitutions. *)
Inductive piece := PLit (s : str) | PVar (i : nat).
Definition name_byte (b : byte) : bool := is_lower b || beqb b x5f.
Definition var_names : list str :=
  map bs ["title"; "date"; "root_path"; "wiki_path"; "css"; "encoding"; "content"]%string.
Definition marker (i : nat) : str := bs "%" ++ nth i var_names [] ++ bs "%".
Definition piece_text (p : piece) : str := match p with PLit s => s | PVar i => marker i end.
Definition template_text (ps : list piece) : str := flat_map piece_text ps.
(** A percent sign is followed by something that does not begin a name. *)
Fixpoint percent_ok (s : str) : Prop :=
  match s with
  | [] => True
  | b :: s' => (b = x25 -> exists c s'', s' = c :: s'' /\ name_byte c = false) /\ percent_ok s'
  end.
(** After a variable comes the end, literal text that does not continue a
    name, or a variable further down the list. *)
Fixpoint template_ok (ps : list piece) : Prop :=
  match ps with
  | [] => True
  | PLit s :: ps' => percent_ok s /\ template_ok ps'
  | PVar i :: ps' =>
      i < 7 /\ template_ok ps' /\
      match ps' with
      | [] => True
      | PLit (b :: _) :: _ => name_byte b = false
      | PLit [] :: _ => False
      | PVar j :: _ => i < j
      end
  end.
Definition instantiate (vals : list str) (ps : list piece) : str :=
  flat_map (fun p => match p with PLit s => s | PVar i => nth i vals [] end) ps.

(** [s] contains [pat]. *)
Definition contains (pat s : str) : Prop := exists a b, s = a ++ pat ++ b.
