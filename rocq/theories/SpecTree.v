(** The elements of a page as a tree of regions, the requirement that the
    tree is properly nested, and UTF-8. *)
From Verif Require Import Base ModelSpan ModelComb ModelAst ModelTable ModelLink SpecDoc SpecBlock.

(** Everything in a page that carries a region. *)
Inductive node :=
| NBlock (b : block)
| NItem (i : list_item)
| NInline (x : inline)
| NDeco (x : dcontent)
| NCell (c : cell)
| NTerm (c : container)
| NDef (c : container)
| NPair (t : term_defs)
| NBundle (l : list (located container)).

Inductive rtree := RNode (r : region) (n : node) (kids : list rtree).

Definition t_reg (t : rtree) : region := match t with RNode r _ _ => r end.
Definition t_end (t : rtree) : nat := r_off (t_reg t) + r_len (t_reg t).

(** The cells of a table, row by row, each row from left to right. *)
Definition table_cells (t : table) : list (located cell) :=
  flat_map (fun r =>
    flat_map (fun c => match get_cell t r c with Some x => [x] | None => [] end)
             (seq 0 (t_col_cnt t)))
    (seq 0 (t_row_cnt t)).

Fixpoint dc_kids (x : dcontent) : list rtree :=
  match x with
  | DCDeco _ cs => map (fun y => RNode (l_reg y) (NDeco (l_val y)) (dc_kids (l_val y))) cs
  | _ => []
  end.
Definition inline_kids (x : inline) : list rtree :=
  match x with
  | IDeco k cs => dc_kids (DCDeco k cs)
  | _ => []
  end.
Definition container_trees (c : container) : list rtree :=
  map (fun x => RNode (l_reg x) (NInline (l_val x)) (inline_kids (l_val x))) c.
Definition cell_kids (c : cell) : list rtree :=
  match c with CContent x => container_trees x | _ => [] end.

(** With [w], the two grouping nodes of a definition list (the pair of a term
    and its definitions, and the bundle of definitions) are kept; without it
    their members take their place. *)
Definition wrap (w : bool) (r : region) (n : node) (kids : list rtree) : list rtree :=
  if w then [RNode r n kids] else kids.
Definition def_trees (w : bool) (l : def_list) : list rtree :=
  flat_map (fun x =>
    let t := td_term (l_val x) in
    let b := td_defs (l_val x) in
    wrap w (l_reg x) (NPair (l_val x))
      (RNode (l_reg t) (NTerm (l_val t)) (container_trees (l_val t)) ::
       wrap w (l_reg b) (NBundle (l_val b))
         (map (fun y => RNode (l_reg y) (NDef (l_val y)) (container_trees (l_val y))) (l_val b)))) l.

Fixpoint block_kids (w : bool) (b : block) : list rtree :=
  match b with
  | BHeader h => container_trees (h_content h)
  | BParagraph ls => flat_map container_trees ls
  | BDefList l => def_trees w l
  | BTable t => map (fun x => RNode (l_reg x) (NCell (l_val x)) (cell_kids (l_val x))) (table_cells t)
  | BList items => map (fun x => RNode (l_reg x) (NItem (l_val x)) (item_kids w (l_val x))) items
  | _ => []
  end
with item_kids (w : bool) (i : list_item) : list rtree :=
  match i with
  | ListItem _ _ _ contents _ =>
      map (fun x => RNode (l_reg x) (NBlock (l_val x)) (block_kids w (l_val x))) contents
  end.

Definition page_trees (w : bool) (p : page) : list rtree :=
  map (fun x => RNode (l_reg x) (NBlock (l_val x)) (block_kids w (l_val x))) p.

(** All elements of a page, at every depth. *)
Fixpoint tree_nodes (t : rtree) : list (region * node) :=
  match t with RNode r n kids => (r, n) :: flat_map tree_nodes kids end.
Definition elements (p : page) : list (region * node) := flat_map tree_nodes (page_trees true p).

(** Trees satisfying [P], in order, between [lo] and [hi]. *)
Definition forest (P : rtree -> Prop) :=
  fix go (lo : nat) (l : list rtree) (hi : nat) : Prop :=
    match l with
    | [] => lo <= hi
    | t :: l' => lo <= r_off (t_reg t) /\ P t /\ go (t_end t) l' hi
    end.

(** A region tree whose root has depth [d]: children lie inside their parent,
    in order and without overlap, one level deeper; no region is empty. *)
Fixpoint tree_ok (d : nat) (t : rtree) : Prop :=
  match t with
  | RNode r _ kids =>
      r_depth r = d /\ 0 < r_len r /\ forest (tree_ok (S d)) (r_off r) kids (r_off r + r_len r)
  end.

(** The two halves of it: children lie inside their parent, in order and
    without overlap; the recorded depth is the depth in the tree. *)
Fixpoint tree_nested (t : rtree) : Prop :=
  match t with RNode r _ kids => forest tree_nested (r_off r) kids (r_off r + r_len r) end.
Fixpoint depth_ok (d : nat) (t : rtree) : Prop :=
  match t with RNode r _ kids =>
    r_depth r = d /\ (fix go l := match l with [] => True | k :: l' => depth_ok (S d) k /\ go l' end) kids
  end.

(** The bytes of one character in UTF-8 (RFC 3629). *)
Definition in_range (b : byte) (lo hi : nat) : Prop := lo <= byte_n b <= hi.
Definition tail_byte (b : byte) : Prop := in_range b 128 191.
Inductive utf8_char : str -> Prop :=
| U1 a : in_range a 0 127 -> utf8_char [a]
| U2 a b : in_range a 194 223 -> tail_byte b -> utf8_char [a; b]
| U3a a b c : in_range a 224 224 -> in_range b 160 191 -> tail_byte c -> utf8_char [a; b; c]
| U3b a b c : in_range a 225 236 -> tail_byte b -> tail_byte c -> utf8_char [a; b; c]
| U3c a b c : in_range a 237 237 -> in_range b 128 159 -> tail_byte c -> utf8_char [a; b; c]
| U3d a b c : in_range a 238 239 -> tail_byte b -> tail_byte c -> utf8_char [a; b; c]
| U4a a b c e : in_range a 240 240 -> in_range b 144 191 -> tail_byte c -> tail_byte e -> utf8_char [a; b; c; e]
| U4b a b c e : in_range a 241 243 -> tail_byte b -> tail_byte c -> tail_byte e -> utf8_char [a; b; c; e]
| U4c a b c e : in_range a 244 244 -> in_range b 128 143 -> tail_byte c -> tail_byte e -> utf8_char [a; b; c; e].

Definition valid_utf8 (l : str) : Prop := exists cs, Forall utf8_char cs /\ l = concat cs.

(** [i] is between two characters of [l]. *)
Definition boundary (l : str) (i : nat) : Prop :=
  i <= length l /\ valid_utf8 (firstn i l) /\ valid_utf8 (skipn i l).

(** A boundary, provided that the input is UTF-8 at all. *)
Definition soft_boundary (l : str) (i : nat) : Prop := valid_utf8 l -> boundary l i.

(** * The circumstances in which the page parser can panic *)

(** The last byte of a markup construct after which inline text may begin in
    the middle of a word. *)
Definition seam_chars : str := bs "*_~^,`$]}%=|".

(** Inline text may begin at [t] although [t] is inside a word. *)
Definition text_cut (inner : str) (t : nat) : Prop :=
  (exists b, nth_error inner (t - 1) = Some b /\ In b seam_chars) \/
  (exists k, length (kw_str k) <= t /\ slice (t - length (kw_str k)) t inner = kw_str k).

(** (1) A word beginning at [i] starts with a URL with one of the raw link
    schemes; before its first colon, at [t], a markup construct or a keyword
    ends. *)
Definition cut_link (uri_parse : str -> option uri) (inner : str) : Prop :=
  exists i t k j u,
    word_start inner i /\
    i < t /\ t <= k /\ k < j /\ nth_error inner k = Some x3a /\
    Forall (fun b => is_space b = false /\ is_nl b = false) (slice i j inner) /\
    text_cut inner t /\ uri_parse (slice i j inner) = Some u /\ raw_scheme u.

(** (2) A diary link whose anchor, after decoding and printing, is not a URI
    reference. *)
Definition bad_diary (uri_parse : str -> option uri) (inner : str) : Prop :=
  exists lo hi body a,
    surrounded_by inner (bs "[[") (bs "]]") lo hi body /\ starts_with (bs "diary:") body = true /\
    (a = [] \/ exists i j x, anchor_from_fragment (slice i j body) = Some x /\ a = anchor_to_fragment x) /\
    uri_parse a = None.

(** (3) A white space character of more than one byte, or one followed by a
    stray continuation byte. *)
Definition split_space (inner : str) : Prop :=
  exists i c m b, In c ws_chars /\ starts_with c (skipn i inner) = true /\ 0 < m <= length c /\
    nth_error inner (i + m) = Some b /\ is_cont b = true.

(** White space of more than one byte. *)
Definition wide_space (inner : str) : Prop :=
  exists i c, In c ws_chars /\ 1 < length c /\ starts_with c (skipn i inner) = true.

(** * Containers *)

(** The elements follow each other without gap or overlap from [lo] to [hi]. *)
Fixpoint tiles (lo : nat) (c : container) (hi : nat) : Prop :=
  match c with
  | [] => lo = hi
  | x :: c' => r_off (l_reg x) = lo /\ 0 < r_len (l_reg x) /\ tiles (lo + r_len (l_reg x)) c' hi
  end.

(** The containers of inline elements a node owns. *)
Definition containers (n : node) : list container :=
  match n with
  | NBlock (BHeader h) => [h_content h]
  | NBlock (BParagraph ls) => ls
  | NCell (CContent c) => [c]
  | NTerm c => [c]
  | NDef c => [c]
  | _ => []
  end.

(** The lines of a paragraph: leading blanks, a container, a line ending. *)
Fixpoint lines_tile (inner : str) (lo : nat) (ls : list container) (hi : nat) : Prop :=
  match ls with
  | [] => lo = hi
  | c :: ls' => exists a b mid,
      lo <= a /\ blanks (slice lo a inner) /\ c <> [] /\ tiles a c b /\
      b <= mid /\ eol_at inner mid (slice b mid inner) /\ lines_tile inner mid ls' hi
  end.

(** * Spans *)

Definition wf_span (s : span) : Prop := sp_start s <= sp_end s /\ sp_end s <= length (sp_inner s).

(** [s'] is what is left of [s] after some prefix. *)
Definition suffix_span (s s' : span) : Prop :=
  sp_inner s' = sp_inner s /\ sp_end s' = sp_end s /\ sp_depth s' = sp_depth s /\
  sp_start s <= sp_start s' <= sp_end s.

(** A span at which the code starts to read inline text: empty, next to
    white space, or after markup. *)
Definition inline_start (s : span) : Prop :=
  sp_start s = sp_end s \/ word_start (sp_inner s) (sp_start s) \/
  (exists b, nth_error (sp_inner s) (sp_start s) = Some b /\ is_ascii_ws b = true) \/
  text_cut (sp_inner s) (sp_start s).

(** A closing line of a fenced block is at [i]. *)
Definition fence_at (inner fence : str) (i : nat) : Prop :=
  bol inner i /\ exists a b e, slice i (i + length (a ++ fence ++ b ++ e)) inner = a ++ fence ++ b ++ e /\
    blanks a /\ blanks b /\ eol_at inner (i + length (a ++ fence ++ b ++ e)) e.

(** A parser that, where [pre] holds, only moves forward in its input. *)
Definition forward {A} (pre : span -> Prop) (p : parser A) : Prop :=
  forall s s' a, wf_span s -> pre s -> p s = Ok s' a -> suffix_span s s'.

(** * Pages *)

(** Blocks begin at line starts, in order; what is outside them is blank. *)
Fixpoint page_covered (input : str) (lo : nat) (p : page) : Prop :=
  match p with
  | [] => lo <= length input /\ ws_gap input lo (length input)
  | x :: p' => lo <= r_off (l_reg x) /\ ws_gap input lo (r_off (l_reg x)) /\
      bol input (r_off (l_reg x)) /\ 0 < r_len (l_reg x) /\
      page_covered input (r_off (l_reg x) + r_len (l_reg x)) p'
  end.

(** * Tables *)

Definition has_cell (t : table) (r c : nat) : Prop := exists x, In (CellPos r c, x) (t_cells t).
