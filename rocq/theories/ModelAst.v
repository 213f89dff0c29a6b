(** The element types of /repo/vimwiki-core/src/lang/elements.

    Borrowed versus owned text ([Cow]) is not distinguished.  A [HashMap] is
    an association list whose keys are pairwise distinct (see [collect_map]);
    its unspecified iteration order is modelled by the list order, which no
    theorem relies on unless it says so. *)
From Verif Require Import Base ModelSpan.

(** elements/blocks/inline/typefaces.rs:421-437 [Keyword]. *)
Inductive keyword := KTodo | KDone | KStarted | KFixme | KFixed | KXxx.

(** [chrono::NaiveDate] as year, month, day. *)
Record date := Date { d_year : Z; d_month : nat; d_day : nat }.

(** [uriparse::URIReference]: scheme, authority, path (absolute flag and
    segments), query, fragment.  External crate; kept as its parsed parts. *)
Record uri := Uri {
  u_scheme : option str;
  u_authority : option str;
  u_abs : bool;
  u_segs : list str;
  u_query : option str;
  u_fragment : option str
}.

(** links/description.rs:23-26 [Description], links/data.rs:19-23 [LinkData]. *)
Inductive description :=
| DescText (t : str)
| DescTransclusion (d : link_data)
with link_data :=
| LinkData (u : uri) (d : option description) (props : option (list (str * str))).

Definition ld_uri (d : link_data) : uri := match d with LinkData u _ _ => u end.
Definition ld_desc (d : link_data) : option description :=
  match d with LinkData _ x _ => x end.
Definition ld_props (d : link_data) : option (list (str * str)) :=
  match d with LinkData _ _ p => p end.

(** links/anchor.rs:26-29 [Anchor]. *)
Definition anchor := list str.

(** links/mod.rs:35-63 [Link]; the [u32] index is an [N]. *)
Inductive link :=
| LWiki (d : link_data)
| LIndexed (i : N) (d : link_data)
| LNamed (name : str) (d : link_data)
| LDiary (dt : date) (d : link_data)
| LRaw (d : link_data)
| LTransclusion (d : link_data).

(** links/mod.rs:235-256 [data], [into_data]. *)
Definition link_get_data (l : link) : link_data :=
  match l with
  | LWiki d | LIndexed _ d | LNamed _ d | LDiary _ d | LRaw d | LTransclusion d => d
  end.

(** typefaces.rs:207-213 [DecoratedText] is a decoration and its contents;
    typefaces.rs:101-106 [DecoratedTextContent]. *)
Inductive deco := Bold | Italic | Strikeout | Superscript | Subscript.
Inductive dcontent :=
| DCText (t : str)
| DCDeco (k : deco) (cs : list (located dcontent))
| DCKeyword (k : keyword)
| DCLink (l : link).
Definition decorated := (deco * list (located dcontent))%type.

(** elements/blocks/inline/comments.rs [Comment]. *)
Inductive comment := CLine (t : str) | CMulti (lines : list str).

(** elements/blocks/inline/mod.rs [InlineElement]. *)
Inductive inline :=
| IText (t : str)
| IDeco (k : deco) (cs : list (located dcontent))
| IKeyword (k : keyword)
| ILink (l : link)
| ITags (ts : list str)
| ICode (t : str)
| IMath (t : str)
| IComment (c : comment).

(** elements/blocks/inline/mod.rs [InlineElementContainer]. *)
Definition container := list (located inline).

(** elements/blocks/headers.rs:24-36. *)
Record header := Header { h_content : container; h_level : nat; h_centered : bool }.

(** elements/blocks/placeholders.rs:8-17. *)
Inductive placeholder :=
| PTitle (t : str)
| PNoHtml
| PTemplate (t : str)
| PDate (d : date)
| POther (name value : str).

(** elements/blocks/code.rs:18-31. *)
Record code_block := CodeBlock {
  cb_lang : option str; cb_meta : list (str * str); cb_lines : list str }.

(** elements/blocks/math.rs:19-28. *)
Record math_block := MathBlock { mb_lines : list str; mb_env : option str }.

(** elements/blocks/definitions.rs:244-247, 304-307. *)
Record term_defs := TermDefs {
  td_term : located container;
  td_defs : located (list (located container)) }.
Definition def_list := list (located term_defs).

(** elements/blocks/tables.rs:26-32, 73-88, 362-366, 443-462. *)
Record cellpos := CellPos { cp_row : nat; cp_col : nat }.
Inductive cell_span := FromLeft | FromAbove.
Inductive col_align := AlNone | AlLeft | AlCenter | AlRight.
Inductive cell :=
| CContent (c : container)
| CSpan (s : cell_span)
| CAlign (a : col_align).
Record table := Table {
  t_cells : list (cellpos * located cell);
  t_row_cnt : nat;
  t_col_cnt : nat;
  t_centered : bool }.

(** elements/blocks/lists/item.rs:245-249, 276-279, 334-341, 406-419, 494-512, 525-528. *)
Inductive suffix := SufNone | SufPeriod | SufParen.
Inductive ordered_ty := ONumber | OPound | OLowerAlpha | OUpperAlpha | OLowerRoman | OUpperRoman.
Inductive unordered_ty := UHyphen | UAsterisk | UOther (p : str).
Inductive item_ty := TOrdered (o : ordered_ty) | TUnordered (u : unordered_ty).
Inductive todo_status :=
| TodoIncomplete | TodoPartial1 | TodoPartial2 | TodoPartial3 | TodoComplete | TodoRejected.

(** elements/blocks/mod.rs [BlockElement] and lists/item.rs:26-44 [ListItem],
    lists/mod.rs:32-38 [List] (its items), 189 [ListItemContents]. *)
Inductive block :=
| BBlockquote (lines : list str)
| BDefList (d : def_list)
| BDivider
| BHeader (h : header)
| BList (items : list (located list_item))
| BMath (m : math_block)
| BParagraph (lines : list container)
| BPlaceholder (p : placeholder)
| BCode (c : code_block)
| BTable (t : table)
with list_item :=
| ListItem (ty : item_ty) (suf : suffix) (pos : nat)
           (contents : list (located block)) (todo : option todo_status).

Definition li_ty (i : list_item) := match i with ListItem t _ _ _ _ => t end.
Definition li_suffix (i : list_item) := match i with ListItem _ s _ _ _ => s end.
Definition li_pos (i : list_item) := match i with ListItem _ _ p _ _ => p end.
Definition li_contents (i : list_item) := match i with ListItem _ _ _ c _ => c end.
Definition li_todo (i : list_item) := match i with ListItem _ _ _ _ t => t end.
Definition li_with_pos (p : nat) (i : list_item) : list_item :=
  match i with ListItem t s _ c d => ListItem t s p c d end.
Definition li_with_ty (t : item_ty) (i : list_item) : list_item :=
  match i with ListItem _ s p c d => ListItem t s p c d end.

(** elements/mod.rs:36-42 [Page]. *)
Definition page := list (located block).

(** [pairs.into_iter().collect::<HashMap<_,_>>()]: a later pair with an equal
    key replaces the earlier value. *)
Fixpoint map_insert (k v : str) (m : list (str * str)) : list (str * str) :=
  match m with
  | [] => [(k, v)]
  | (k', v') :: m' => if str_eqb k k' then (k, v) :: m' else (k', v') :: map_insert k v m'
  end.
Definition collect_map (l : list (str * str)) : list (str * str) :=
  fold_left (fun m kv => map_insert (fst kv) (snd kv) m) l [].
Fixpoint map_get (k : str) (m : list (str * str)) : option str :=
  match m with
  | [] => None
  | (k', v) :: m' => if str_eqb k k' then Some v else map_get k m'
  end.

Definition cellpos_eqb (a b : cellpos) : bool :=
  (cp_row a =? cp_row b) && (cp_col a =? cp_col b).
