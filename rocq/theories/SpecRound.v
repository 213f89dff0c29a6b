(** The vimwiki text of an element, and the elements that text describes
    without ambiguity: those in which no plain text could be taken for some
    other element.  Written on the element types and on byte strings, without
    reference to the parsers or to the printer. *)
From Verif Require Import Base ModelSpan ModelAst ModelLink ModelElem SpecDoc SpecBlock SpecSpan SpecEq.
From Verif Require SpecElem.

(** * Lines *)

Definition no_cr_end (a : str) : Prop := forall x, a <> x ++ [b_cr].
Definition nl_lines (ls : list str) : str := flat_map (fun l => l ++ [b_nl]) ls.
Definition fenced_line (f l : str) : Prop := no_nl l /\ no_cr_end l /\ ~ closing_line f l.
Definition env_text (e : option str) : str := match e with Some e => bs "%" ++ e ++ bs "%" | None => [] end.
Definition env_fine (e : option str) : Prop :=
  match e with Some e => e <> [] /\ no_nl e /\ ~ In x25 e | None => True end.
Definition math_lines (m : math_block) : list str := (bs "{{$" ++ env_text (mb_env m)) :: mb_lines m ++ [bs "}}$"].
Definition attr_fine (kv : str * str) : Prop :=
  fst kv <> [] /\ no_nl (fst kv) /\ ~ In x3d (fst kv) /\ ~ In b_sp (fst kv) /\ ~ In b_tab (fst kv) /\
  no_nl (snd kv) /\ ~ In x22 (snd kv).
Definition attrs_text (ps : list (str * str)) : str := join (bs " ") (map meta_text ps).
Definition lang_fine (l : str) : Prop := l <> [] /\ no_nl l /\ no_cr_end l /\ ~ In b_sp l /\ ~ In x3d l.
Definition code_head (l : option str) (ps : list (str * str)) : str :=
  match l with
  | Some l => l ++ match ps with [] => [] | _ => b_sp :: attrs_text ps end
  | None => attrs_text ps
  end.
Definition code_lines (c : code_block) (ps : list (str * str)) : list str :=
  (bs "{{{" ++ code_head (cb_lang c) ps) :: cb_lines c ++ [bs "}}}"].
(** The value of a placeholder.  The code takes a value whose second and later
    bytes are blank for an empty one. *)
Definition value_fine (t : str) : Prop := no_nl t /\ no_cr_end t /\ no_lead t /\ ~ blanks (tl t).
Definition name_fine (n : str) : Prop :=
  n <> [] /\ no_nl n /\ ~ In b_sp n /\ ~ In b_tab n /\ ~ In x25 n /\
  forall r w, In w [bs "title"; bs "nohtml"; bs "template"; bs "date"] -> n <> w ++ r.
Definition placeholder_line (p : placeholder) : str :=
  match p with
  | PTitle t => bs "%title " ++ t
  | PDate d => bs "%date " ++ date_display d
  | PTemplate t => bs "%template " ++ t
  | PNoHtml => bs "%nohtml"
  | POther n v => bs "%" ++ n ++ bs " " ++ v
  end.
Definition placeholder_fine (dp : str -> option date) (p : placeholder) : Prop :=
  match p with
  | PTitle t | PTemplate t => value_fine t
  | PDate d => dp (date_display d) = Some d /\ no_nl (date_display d) /\ no_cr_end (date_display d) /\ no_lead (date_display d)
  | PNoHtml => True
  | POther n v => name_fine n /\ value_fine v
  end.
Definition quote_fine (l : str) : Prop := no_nl l /\ ~ In b_cr l.
Definition quote_lines (ls : list str) : list str := map (fun l => bs "> " ++ l) ls.

Section Round.
(** How URIs and dates are read, and [String::from_utf8_lossy]. *)
Variable up : str -> option uri.
Variable dp : str -> option date.
Variable lossy : str -> str.

(** * The text of inline elements *)

Definition desc_src (d : option description) : str :=
  match d with Some (DescText t) => bs "|" ++ t | _ => [] end.
Definition target_src (d : link_data) : str := lossy (percent_decode (uri_display (ld_uri d))).
Definition anchor_src (d : link_data) : str :=
  match to_anchor d with Some a => bs "#" ++ join (bs "#") a | None => [] end.
(** What is between the brackets of a link. *)
Definition inside_src (l : link) : str :=
  match l with
  | LWiki d | LTransclusion d => target_src d ++ desc_src (ld_desc d)
  | LIndexed i d => bs "wiki" ++ dec i ++ bs ":" ++ target_src d ++ desc_src (ld_desc d)
  | LNamed n d => bs "wn." ++ n ++ bs ":" ++ target_src d ++ desc_src (ld_desc d)
  | LDiary t d => bs "diary:" ++ date_display t ++ anchor_src d ++ desc_src (ld_desc d)
  | LRaw d => uri_display (ld_uri d)
  end.
Definition link_src (l : link) : str :=
  match l with
  | LRaw _ => inside_src l
  | LTransclusion _ => bs "{{" ++ inside_src l ++ bs "}}"
  | _ => bs "[[" ++ inside_src l ++ bs "]]"
  end.
Fixpoint dc_src (c : dcontent) : str :=
  match c with
  | DCText t => t
  | DCDeco k cs => delim_of k ++ flat_map (fun x => dc_src (l_val x)) cs ++ delim_of k
  | DCKeyword k => kw_str k
  | DCLink l => link_src l
  end.
Definition dcs_src (cs : list (located dcontent)) : str := flat_map (fun x => dc_src (l_val x)) cs.
Definition inline_src (i : inline) : str :=
  match i with
  | IText t => t
  | IDeco k cs => dc_src (DCDeco k cs)
  | IKeyword k => kw_str k
  | ILink l => link_src l
  | ITags ts => bs ":" ++ flat_map (fun t => t ++ bs ":") ts
  | ICode t => bs "`" ++ t ++ bs "`"
  | IMath t => bs "$" ++ t ++ bs "$"
  | IComment (CLine t) => bs "%%" ++ t
  | IComment (CMulti _) => []
  end.
Definition cont_src (c : container) : str := flat_map (fun x => inline_src (l_val x)) c.

(** * Which inline elements their text describes *)

(** [l] ends, respectively starts, with white space or has no byte there. *)
Definition ws_before (l : str) : Prop := l = [] \/ exists a c, l = a ++ [c] /\ is_ascii_ws c = true.
Definition ws_after (l : str) : Prop := l = [] \/ exists c r, l = c :: r /\ is_ascii_ws c = true.
Definition after_word (l : str) : Prop := exists a c, l = a ++ [c] /\ is_ascii_ws c = false.

(** What begins an element other than plain text. *)
Definition openers : list str :=
  [bs "%%"; bs "`"; bs "$"; bs "[["; bs "{{"; bs "*"; bs "_"; bs "~~"; bs "^"; bs ",,";
   bs "TODO"; bs "DONE"; bs "STARTED"; bs "FIXME"; bs "FIXED"; bs "XXX"].
Definition web_schemes : list str :=
  [bs "http"; bs "https"; bs "ftp"; bs "file"; bs "local"; bs "mailto"].
Definition lower (b : byte) : byte := if is_upper b then byte_of (byte_n b + 32) else b.
(** [l] begins like a raw link. *)
Definition web_head (l : str) : Prop := exists w r, l = w ++ bs ":" ++ r /\ In (map lower w) web_schemes.

(** Nothing but text begins inside [t], which is followed by [next]. *)
Definition quiet (t next : str) : Prop :=
  forall a b, t = a ++ b -> b <> [] ->
    (forall w r, In w openers -> b ++ next <> w ++ r) /\ ~ web_head (b ++ next).
(** A colon of [t] does not begin a tag: it ends a word or is alone. *)
Definition colons (before t next : str) : Prop :=
  forall a r, t = a ++ bs ":" ++ r -> after_word (before ++ a) \/ ws_after (r ++ next).
Definition text_fine (before t next : str) : Prop :=
  t <> [] /\ no_nl t /\ ~ In b_cr t /\ quiet t next /\ colons before t next.

(** [d] does not occur in [d]-delimited text before its end. *)
Definition closes (d body : str) : Prop :=
  forall a b, body ++ d = a ++ d ++ b -> a = [] \/ a = body \/ length body < length a.
Definition delimited_fine (d body : str) : Prop :=
  body <> [] /\ no_nl body /\ absent (bs "%%") body /\ closes d body.

(** How the target of a link is read. *)
Definition reads_as (w : str) (u : uri) : Prop :=
  up w = Some u \/ (up w = None /\ up (encode_uri w) = Some u).
Definition target_fine (d : link_data) : Prop :=
  let w := target_src d in
  w <> [] /\ no_nl w /\ ~ In x7c w /\ absent (bs "]]") w /\ absent (bs "}}") w /\ reads_as w (ld_uri d).
Definition desc_fine (d : option description) : Prop :=
  match d with
  | None => True
  | Some (DescText t) => no_nl t /\ ~ In x7c t /\ forall r, t <> bs "{{" ++ r
  | Some (DescTransclusion _) => False
  end.
Definition data_fine (d : link_data) : Prop := target_fine d /\ desc_fine (ld_desc d) /\ ld_props d = None.
Definition date_fine (t : date) : Prop := dp (date_display t) = Some t.
Definition raw_fine (d : link_data) (next : str) : Prop :=
  let w := uri_display (ld_uri d) in
  (exists s, u_scheme (ld_uri d) = Some s /\ In s web_schemes) /\
  up w = Some (ld_uri d) /\ Forall (fun b => is_ascii_ws b = false) w /\
  (next = [] \/ exists c r, next = c :: r /\ is_space c = true) /\
  ld_desc d = None /\ ld_props d = None.
Definition link_fine (l : link) (next : str) : Prop :=
  match l with
  | LWiki d =>
      data_fine d /\ delimited_fine (bs "]]") (inside_src l) /\
      forall w r, In w [bs "diary:"; bs "wiki"; bs "wn."] -> inside_src l <> w ++ r
  | LIndexed i d => data_fine d /\ delimited_fine (bs "]]") (inside_src l) /\ (i <= 4294967295)%N
  | LNamed n d =>
      data_fine d /\ delimited_fine (bs "]]") (inside_src l) /\ n <> [] /\ no_nl n /\ ~ In x3a n
  | LDiary t d =>
      date_fine t /\ delimited_fine (bs "]]") (inside_src l) /\ desc_fine (ld_desc d) /\ ld_props d = None /\
      match to_anchor d with
      | Some a => Forall (fun x => no_nl x /\ ~ In x23 x /\ ~ In x7c x) a /\
                  up (bs "#" ++ join (bs "%23") a) = Some (ld_uri d)
      | None => up [] = Some (ld_uri d)
      end
  | LRaw d => raw_fine d next
  | LTransclusion d => data_fine d /\ delimited_fine (bs "}}") (inside_src l)
  end.

(** Elements that may stand next to each other: two texts would be one, and a
    raw link after text is only seen where a word begins. *)
Definition beside (x y : dcontent) : Prop :=
  match x, y with
  | DCText _, DCText _ => False
  | DCText t, DCLink (LRaw _) => ws_before t
  | _, _ => True
  end.
Definition beside_i (x y : inline) : Prop :=
  match x, y with
  | IText _, IText _ => False
  | IText t, ILink (LRaw _) => ws_before t
  | _, _ => True
  end.
Fixpoint neighbours {A} (P : A -> A -> Prop) (l : list (located A)) : Prop :=
  match l with
  | x :: l' => match l' with y :: _ => P (l_val x) (l_val y) | [] => True end /\ neighbours P l'
  | [] => True
  end.

Fixpoint dc_fine (before : str) (c : dcontent) (next : str) : Prop :=
  match c with
  | DCText t => text_fine before t next
  | DCDeco k cs =>
      delimited_fine (delim_of k) (dcs_src cs) /\ neighbours beside cs /\
      (fix go (before : str) (cs : list (located dcontent)) : Prop :=
         match cs with
         | [] => True
         | x :: cs' => dc_fine before (l_val x) (dcs_src cs') /\ go (before ++ dc_src (l_val x)) cs'
         end) (before ++ delim_of k) cs
  | DCKeyword _ => True
  | DCLink l => link_fine l next
  end.
Definition tags_fine (before : str) (ts : list str) (next : str) : Prop :=
  ts <> [] /\ ws_before before /\ ws_after next /\
  Forall (fun t => t <> [] /\ ~ In x3a t /\ Forall (fun b => is_ascii_ws b = false) t) ts.
Definition inline_fine (before : str) (i : inline) (next : str) : Prop :=
  match i with
  | IText t => text_fine before t next
  | IDeco k cs => dc_fine before (DCDeco k cs) next
  | IKeyword _ => True
  | ILink l => link_fine l next
  | ITags ts => tags_fine before ts next
  | ICode t => delimited_fine (bs "`") t
  | IMath t => t <> [] /\ no_nl t /\ absent (bs "%%") t /\ ~ In x24 t
  | IComment (CLine t) => next = [] /\ no_nl t /\ t = bs " " ++ str_trim t
  | IComment (CMulti _) => False
  end.
Fixpoint items_fine (before : str) (c : container) : Prop :=
  match c with
  | [] => True
  | x :: c' => inline_fine before (l_val x) (cont_src c') /\ items_fine (before ++ inline_src (l_val x)) c'
  end.
(** Elements on one line, read from where a word may begin. *)
Definition cont_fine (c : container) : Prop :=
  c <> [] /\ items_fine [] c /\ neighbours beside_i c /\
  no_nl (cont_src c) /\ str_trim (cont_src c) = cont_src c.

(** * The text of blocks *)

(** How a number is written in Roman numerals. *)
Variable roman : bool -> Z -> str.

Definition header_line (h : header) : str :=
  (if h_centered h then bs "    " else []) ++ repeat x3d (h_level h) ++ bs " " ++
  cont_src (h_content h) ++ bs " " ++ repeat x3d (h_level h).
(** A term and its first definition share a line. *)
Definition def_line (d : located container) : str := bs ":: " ++ cont_src (l_val d).
Definition td_lines (t : term_defs) : list str :=
  match map def_line (l_val (td_defs t)) with
  | l :: ls => (cont_src (l_val (td_term t)) ++ l) :: ls
  | [] => []
  end.
(** The cells of a column are equally wide; a span is at least as wide as its
    mark between blanks, an alignment as wide as its colons and a dash. *)
Definition cell_at (t : table) (r c : nat) : option (located cell) :=
  match find (fun kv => (cp_row (fst kv) =? r)%nat && (cp_col (fst kv) =? c)%nat) (t_cells t) with
  | Some kv => Some (snd kv)
  | None => None
  end.
Definition cell_size (c : cell) : nat :=
  match c with
  | CContent x => length (cont_src x)
  | CSpan FromLeft => 3
  | CSpan FromAbove => 4
  | CAlign AlNone => 1
  | CAlign AlCenter => 3
  | CAlign _ => 2
  end.
Definition col_size (t : table) (c : nat) : nat :=
  list_max (map (fun kv => cell_size (l_val (snd kv))) (filter (fun kv => (cp_col (fst kv) =? c)%nat) (t_cells t))).
Definition cell_src (w : nat) (c : cell) : str :=
  match c with
  | CContent x => cont_src x
  | CSpan FromLeft => bs " >" ++ repeat b_sp (w - 2)
  | CSpan FromAbove => bs " \/" ++ repeat b_sp (w - 3)
  | CAlign AlNone => repeat x2d w
  | CAlign AlLeft => bs ":" ++ repeat x2d (w - 1)
  | CAlign AlRight => repeat x2d (w - 1) ++ bs ":"
  | CAlign AlCenter => bs ":" ++ repeat x2d (w - 2) ++ bs ":"
  end.
Definition row_line (t : table) (r : nat) : str :=
  bs "|" ++ flat_map (fun c => match cell_at t r c with
                               | Some x => cell_src (col_size t c) (l_val x)
                               | None => []
                               end ++ bs "|") (seq 0 (t_col_cnt t)).
Definition row_lines (t : table) : list str := map (row_line t) (seq 0 (t_row_cnt t)).
Definition table_lines (t : table) : list str :=
  map (app (if t_centered t then bs "    " else [])) (row_lines t).
(** What an item of a list begins with. *)
Definition marker (i : list_item) : str := li_prefix roman i ++ bs " ".
(** The lines of a block.  The first line of the contents of a list item
    follows its marker, the others are indented. *)
Fixpoint block_lines (b : block) : list str :=
  match b with
  | BHeader h => [header_line h]
  | BParagraph ls => map cont_src ls
  | BBlockquote ls => quote_lines ls
  | BCode c => code_lines c (n_map (cb_meta c))
  | BMath m => math_lines m
  | BDivider => [bs "----"]
  | BPlaceholder p => [placeholder_line p]
  | BList items => flat_map (fun x => item_lines (l_val x)) items
  | BDefList d => flat_map (fun x => td_lines (l_val x)) d
  | BTable t => table_lines t
  end
with item_lines (i : list_item) : list str :=
  match i with
  | ListItem ty suf pos contents todo =>
      match flat_map (fun x => block_lines (l_val x)) contents with
      | l :: ls => (marker (ListItem ty suf pos [] todo) ++ todo_str todo ++ l) :: map (app (bs "    ")) ls
      | [] => []
      end
  end.
(** The blocks of a page have an empty line between them. *)
Definition page_src (p : page) : str := join [b_nl] (map (fun b => nl_lines (block_lines (l_val b))) p).

(** * Which blocks their text describes *)

(** A line of a paragraph begins no other block. *)
Definition line_plain (l : str) : Prop :=
  absent (bs "::") l /\
  (forall w r, In w [bs "="; bs "|"; bs "{{{"; bs "{{$"; bs "> "; bs "----"] -> l <> w ++ r) /\
  (forall r, l = bs "%" ++ r -> exists r', r = bs "%" ++ r') /\
  (forall t u pre r, prefix_ok t u pre -> l <> pre ++ r).
Definition no_colons (l : str) : Prop := absent (bs "::") l.
(** The text of a term ends at the first double colon and begins no header,
    quotation, table row, list item or comment. *)
Definition term_plain (l : str) : Prop :=
  absent (bs "::") (l ++ bs ":") /\
  (forall w r, In w [bs "="; bs "|"; bs "> "; bs "%%"] -> l <> w ++ r) /\
  (forall t u pre r, prefix_ok t u pre -> l <> pre ++ r).
Definition td_fine (t : term_defs) : Prop :=
  cont_fine (l_val (td_term t)) /\ term_plain (cont_src (l_val (td_term t))) /\
  l_val (td_defs t) <> [] /\ Forall (fun d => cont_fine (l_val d)) (l_val (td_defs t)).
(** The text of a cell is as wide as its column, begins and ends with a blank
    and could not be taken for a span. *)
Definition cell_fine (w : nat) (c : cell) : Prop :=
  match c with
  | CContent x =>
      x <> [] /\ items_fine (bs "|") x /\ neighbours beside_i x /\
      no_nl (cont_src x) /\ ~ In x7c (cont_src x) /\ length (cont_src x) = w /\
      (exists b r, cont_src x = b :: r /\ is_space b = true) /\ (exists b r, cont_src x = r ++ [b] /\ is_space b = true) /\
      (forall a m r, blanks a -> In m [bs ">"; bs "\/"] -> cont_src x <> a ++ m ++ r)
  | _ => True
  end.
(** No cell is missing and no column has alignments only. *)
Definition table_fine (t : table) : Prop :=
  SpecElem.is_map t /\ SpecElem.counts_ok t /\ SpecElem.rectangular t /\ 0 < t_row_cnt t /\ 0 < t_col_cnt t /\
  (forall r c x, SpecElem.at_ t r c x -> cell_fine (col_size t c) (l_val x)) /\
  (forall c, c < t_col_cnt t -> exists r x, SpecElem.at_ t r c x /\ forall a, l_val x <> CAlign a) /\
  Forall no_colons (firstn 1 (row_lines t)).
(** The marker of the first item says of what kind the list is; the others
    need only be markers. *)
Definition marks_fine (items : list (located list_item)) : Prop :=
  match items with
  | [] => False
  | x :: xs =>
      prefix_ok (li_ty (l_val x)) (li_suffix (l_val x)) (marker (l_val x)) /\
      Forall (fun y => li_ty (l_val y) = li_ty (l_val x) /\
                       exists t, prefix_ok t (li_suffix (l_val y)) (marker (l_val y))) xs
  end.
(** What an item of a list may begin with, and what may follow. *)
Definition opens_item (b : block) : Prop :=
  match b with BParagraph _ | BBlockquote _ => True | _ => False end.
Definition in_item (b : block) : Prop :=
  match b with
  | BParagraph _ | BBlockquote _ | BCode _ | BMath _ | BList _ | BDefList _ => True
  | BTable t => t_centered t = false
  | _ => False
  end.
(** There is no empty line between the blocks of an item. *)
Definition in_turn (x y : block) : Prop :=
  match x, y with
  | BParagraph _, BParagraph _ | BBlockquote _, BBlockquote _ | BList _, BList _ | BDefList _, BDefList _ | BTable _, BTable _ => False
  | _, _ => True
  end.
Fixpoint block_fine (b : block) : Prop :=
  match b with
  | BHeader h => 1 <= h_level h <= 6 /\ cont_fine (h_content h)
  | BParagraph ls => ls <> [] /\ Forall (fun c => cont_fine c /\ line_plain (cont_src c)) ls
  | BBlockquote ls =>
      ls <> [] /\ Forall (fun l => quote_fine l /\ l <> [] /\ str_trim l = l) ls /\
      Forall no_colons (firstn 1 (quote_lines ls))
  | BCode c =>
      keyed (cb_meta c) /\ Forall attr_fine (cb_meta c) /\ (forall l, cb_lang c = Some l -> lang_fine l) /\
      Forall (fenced_line (bs "}}}")) (cb_lines c) /\ Forall no_colons (firstn 1 (code_lines c (n_map (cb_meta c))))
  | BMath m =>
      env_fine (mb_env m) /\ Forall (fenced_line (bs "}}$")) (mb_lines m) /\
      Forall no_colons (firstn 1 (math_lines m))
  | BDivider => True
  | BPlaceholder p => placeholder_fine dp p /\ no_colons (placeholder_line p)
  | BList items =>
      marks_fine items /\ map (fun x => li_pos (l_val x)) items = seq 0 (length items) /\
      (fix all (l : list (located list_item)) : Prop :=
         match l with [] => True | x :: l' => item_fine (l_val x) /\ all l' end) items
  | BDefList d => d <> [] /\ Forall (fun x => td_fine (l_val x)) d
  | BTable t => table_fine t
  end
with item_fine (i : list_item) : Prop :=
  match i with
  | ListItem _ _ _ contents todo =>
      match contents with [] => False | c :: cs => opens_item (l_val c) /\ Forall (fun x => in_item (l_val x)) cs end /\
      neighbours in_turn contents /\
      (todo = None -> forall t, Forall (fun l => forall r, l <> todo_str (Some t) ++ r)
         (firstn 1 (flat_map (fun x => block_lines (l_val x)) contents))) /\
      (fix all (l : list (located block)) : Prop :=
         match l with [] => True | x :: l' => block_fine (l_val x) /\ all l' end) contents
  end.
(** Two quotations would be one. *)
Definition apart (x y : block) : Prop :=
  match x, y with BBlockquote _, BBlockquote _ => False | _, _ => True end.
Definition page_fine (p : page) : Prop := Forall (fun b => block_fine (l_val b)) p /\ neighbours apart p.

End Round.

(** A URI with one of the schemes of raw links is spelled with that scheme, in
    letters of either case. *)
Definition schemes_spelled (up : str -> option uri) : Prop :=
  forall t u s, up t = Some u -> u_scheme u = Some s -> In s web_schemes ->
  exists w r, t = w ++ bs ":" ++ r /\ map lower w = s.
