(** Equality, strict equality and hashing of elements: the [PartialEq],
    [StrictEq] and [Hash] implementations of
    /repo/vimwiki-core/src/lang/elements/** and utils.rs. *)
From Verif Require Import Base ModelSpan ModelAst ModelElem ModelVimwiki.

(** * Containers of the standard library *)

Section List.
Context {A : Type}.
Variable f : A -> A -> bool.
(** [Vec]: equal lengths and equal elements; also the [StrictEq] of vectors
    (utils.rs:13-20) and the loops of elements/mod.rs:87-96 and
    definitions.rs:397-403. *)
Fixpoint list_eqb (l m : list A) : bool :=
  match l, m with
  | [], [] => true
  | x :: l', y :: m' => f x y && list_eqb l' m'
  | _, _ => false
  end.
Definition opt_eqb (a b : option A) : bool :=
  match a, b with Some x, Some y => f x y | None, None => true | _, _ => false end.
End List.

(** [HashMap::get]. *)
Fixpoint assoc {K V} (keqb : K -> K -> bool) (k : K) (m : list (K * V)) : option V :=
  match m with
  | [] => None
  | (k', v) :: m' => if keqb k k' then Some v else assoc keqb k m'
  end.
(** [HashMap]'s [PartialEq]; the same loop is written out in tables.rs:349-352. *)
Definition map_eqb {K V} (keqb : K -> K -> bool) (f : V -> V -> bool) (m m' : list (K * V)) : bool :=
  (length m =? length m') &&
  forallb (fun kv => match assoc keqb (fst kv) m' with Some v => f (snd kv) v | None => false end) m.

(** * Elements *)

(** utils/region.rs:6-20 (derived). *)
Definition region_eqb (a b : region) : bool :=
  (r_off a =? r_off b) && (r_len a =? r_len b) && (r_depth a =? r_depth b).

(** utils/mod.rs:154-161: equality of [Located] is that of the inner values. *)
Definition located_eqb {A} (f : A -> A -> bool) (a b : located A) : bool := f (l_val a) (l_val b).
(** utils/mod.rs:172-181: strict equality also compares the regions. *)
Definition located_strict {A} (f : A -> A -> bool) (a b : located A) : bool :=
  f (l_val a) (l_val b) && region_eqb (l_reg a) (l_reg b).

Definition date_eqb (a b : date) : bool :=
  (d_year a =? d_year b)%Z && (d_month a =? d_month b) && (d_day a =? d_day b).
Definition keyword_eqb (a b : keyword) : bool :=
  match a, b with
  | KTodo, KTodo | KDone, KDone | KStarted, KStarted | KFixme, KFixme | KFixed, KFixed | KXxx, KXxx => true
  | _, _ => false
  end.
Definition deco_eqb (a b : deco) : bool :=
  match a, b with
  | Bold, Bold | Italic, Italic | Strikeout, Strikeout | Superscript, Superscript | Subscript, Subscript => true
  | _, _ => false
  end.
Definition comment_eqb (a b : comment) : bool :=
  match a, b with
  | CLine s, CLine t => str_eqb s t
  | CMulti s, CMulti t => list_eqb str_eqb s t
  | _, _ => false
  end.
Definition placeholder_eqb (a b : placeholder) : bool :=
  match a, b with
  | PTitle s, PTitle t => str_eqb s t
  | PNoHtml, PNoHtml => true
  | PTemplate s, PTemplate t => str_eqb s t
  | PDate s, PDate t => date_eqb s t
  | POther n v, POther n' v' => str_eqb n n' && str_eqb v v'
  | _, _ => false
  end.
Definition span_eqb (a b : cell_span) : bool :=
  match a, b with FromLeft, FromLeft | FromAbove, FromAbove => true | _, _ => false end.
Definition align_eqb (a b : col_align) : bool :=
  match a, b with AlNone, AlNone | AlLeft, AlLeft | AlCenter, AlCenter | AlRight, AlRight => true | _, _ => false end.
Definition suffix_eqb (a b : suffix) : bool :=
  match a, b with SufNone, SufNone | SufPeriod, SufPeriod | SufParen, SufParen => true | _, _ => false end.
Definition ordered_eqb (a b : ordered_ty) : bool :=
  match a, b with
  | ONumber, ONumber | OPound, OPound | OLowerAlpha, OLowerAlpha | OUpperAlpha, OUpperAlpha
  | OLowerRoman, OLowerRoman | OUpperRoman, OUpperRoman => true
  | _, _ => false
  end.
Definition item_ty_eqb (a b : item_ty) : bool :=
  match a, b with
  | TOrdered x, TOrdered y => ordered_eqb x y
  | TUnordered UHyphen, TUnordered UHyphen | TUnordered UAsterisk, TUnordered UAsterisk => true
  | TUnordered (UOther x), TUnordered (UOther y) => str_eqb x y
  | _, _ => false
  end.
Definition todo_eqb (a b : todo_status) : bool :=
  match a, b with
  | TodoIncomplete, TodoIncomplete | TodoPartial1, TodoPartial1 | TodoPartial2, TodoPartial2
  | TodoPartial3, TodoPartial3 | TodoComplete, TodoComplete | TodoRejected, TodoRejected => true
  | _, _ => false
  end.
Definition code_eqb (a b : code_block) : bool :=
  opt_eqb str_eqb (cb_lang a) (cb_lang b) && map_eqb str_eqb str_eqb (cb_meta a) (cb_meta b) &&
  list_eqb str_eqb (cb_lines a) (cb_lines b).
Definition math_eqb (a b : math_block) : bool :=
  list_eqb str_eqb (mb_lines a) (mb_lines b) && opt_eqb str_eqb (mb_env a) (mb_env b).

Section Eq.
(** [URIReference]'s [PartialEq] (external crate uriparse). *)
Variable uri_eqb : uri -> uri -> bool.

(** links/data.rs:18, links/description.rs:9-26 (derived). *)
Fixpoint desc_eqb (a b : description) {struct a} : bool :=
  match a, b with
  | DescText s, DescText t => str_eqb s t
  | DescTransclusion x, DescTransclusion y => link_data_eqb x y
  | _, _ => false
  end
with link_data_eqb (a b : link_data) {struct a} : bool :=
  match a, b with
  | LinkData u d p, LinkData u' d' p' =>
      uri_eqb u u' &&
      match d, d' with Some x, Some y => desc_eqb x y | None, None => true | _, _ => false end &&
      opt_eqb (map_eqb str_eqb str_eqb) p p'
  end.
(** links/mod.rs:24-63 (derived), 412-447 [strict_eq]. *)
Definition link_eqb (a b : link) : bool :=
  match a, b with
  | LWiki x, LWiki y => link_data_eqb x y
  | LIndexed i x, LIndexed j y => (i =? j)%N && link_data_eqb x y
  | LNamed s x, LNamed t y => str_eqb s t && link_data_eqb x y
  | LDiary s x, LDiary t y => date_eqb s t && link_data_eqb x y
  | LRaw x, LRaw y => link_data_eqb x y
  | LTransclusion x, LTransclusion y => link_data_eqb x y
  | _, _ => false
  end.

(** * Equality *)

(** typefaces.rs:88-106, 203-213 (derived). *)
Fixpoint dcontent_eqb (a b : dcontent) {struct a} : bool :=
  match a, b with
  | DCText s, DCText t => str_eqb s t
  | DCDeco k x, DCDeco j y => deco_eqb k j && list_eqb (located_eqb dcontent_eqb) x y
  | DCKeyword s, DCKeyword t => keyword_eqb s t
  | DCLink x, DCLink y => link_eqb x y
  | _, _ => false
  end.
(** inline/mod.rs:25-40, 103-120 (derived). *)
Definition inline_eqb (a b : inline) : bool :=
  match a, b with
  | IText s, IText t => str_eqb s t
  | IDeco k x, IDeco j y => deco_eqb k j && list_eqb (located_eqb dcontent_eqb) x y
  | IKeyword s, IKeyword t => keyword_eqb s t
  | ILink x, ILink y => link_eqb x y
  | ITags s, ITags t => list_eqb str_eqb s t
  | ICode s, ICode t => str_eqb s t
  | IMath s, IMath t => str_eqb s t
  | IComment s, IComment t => comment_eqb s t
  | _, _ => false
  end.
Definition container_eqb (a b : container) : bool := list_eqb (located_eqb inline_eqb) a b.
(** definitions.rs:84-89. *)
Definition def_value_eqb (a b : container) : bool := str_eqb (container_display a) (container_display b).
(** definitions.rs:136-154, 243-247, 293-307 (derived). *)
Definition term_defs_eqb (a b : term_defs) : bool :=
  located_eqb def_value_eqb (td_term a) (td_term b) &&
  located_eqb (list_eqb (located_eqb def_value_eqb)) (td_defs a) (td_defs b).
Definition header_eqb (a b : header) : bool :=
  container_eqb (h_content a) (h_content b) && (h_level a =? h_level b) && Bool.eqb (h_centered a) (h_centered b).
(** tables.rs:72-88, 358-366 (derived). *)
Definition cell_eqb (a b : cell) : bool :=
  match a, b with
  | CContent x, CContent y => container_eqb x y
  | CSpan x, CSpan y => span_eqb x y
  | CAlign x, CAlign y => align_eqb x y
  | _, _ => false
  end.
Definition table_eqb (a b : table) : bool :=
  map_eqb cellpos_eqb (located_eqb cell_eqb) (t_cells a) (t_cells b) &&
  (t_row_cnt a =? t_row_cnt b) && (t_col_cnt a =? t_col_cnt b) && Bool.eqb (t_centered a) (t_centered b).
(** blocks/mod.rs:32-47, lists/item.rs:13-44, lists/mod.rs:17-38, 171-189 (derived). *)
Fixpoint block_eqb (a b : block) {struct a} : bool :=
  match a, b with
  | BBlockquote s, BBlockquote t => list_eqb str_eqb s t
  | BDefList x, BDefList y => list_eqb (located_eqb term_defs_eqb) x y
  | BDivider, BDivider => true
  | BHeader x, BHeader y => header_eqb x y
  | BList x, BList y => list_eqb (located_eqb item_eqb) x y
  | BMath x, BMath y => math_eqb x y
  | BParagraph x, BParagraph y => list_eqb container_eqb x y
  | BPlaceholder x, BPlaceholder y => placeholder_eqb x y
  | BCode x, BCode y => code_eqb x y
  | BTable x, BTable y => table_eqb x y
  | _, _ => false
  end
with item_eqb (a b : list_item) {struct a} : bool :=
  match a, b with
  | ListItem t s p c d, ListItem t' s' p' c' d' =>
      item_ty_eqb t t' && suffix_eqb s s' && (p =? p') && list_eqb (located_eqb block_eqb) c c' &&
      opt_eqb todo_eqb d d'
  end.
(** elements/mod.rs:22-42 [Page] (derived). *)
Definition page_eqb (a b : page) : bool := list_eqb (located_eqb block_eqb) a b.

(** * Strict equality *)

(** typefaces.rs:189-201, 403-415. *)
Fixpoint dcontent_strict (a b : dcontent) {struct a} : bool :=
  match a, b with
  | DCText s, DCText t => str_eqb s t
  | DCDeco k x, DCDeco j y => deco_eqb k j && list_eqb (located_strict dcontent_strict) x y
  | DCKeyword s, DCKeyword t => keyword_eqb s t
  | DCLink x, DCLink y => link_eqb x y
  | _, _ => false
  end.
(** inline/mod.rs:85-100, 210-215. *)
Definition inline_strict (a b : inline) : bool :=
  match a, b with
  | IText s, IText t => str_eqb s t
  | IDeco k x, IDeco j y => deco_eqb k j && list_eqb (located_strict dcontent_strict) x y
  | IKeyword s, IKeyword t => keyword_eqb s t
  | ILink x, ILink y => link_eqb x y
  | ITags s, ITags t => list_eqb str_eqb s t
  | ICode s, ICode t => str_eqb s t
  | IMath s, IMath t => str_eqb s t
  | IComment s, IComment t => comment_eqb s t
  | _, _ => false
  end.
Definition container_strict (a b : container) : bool := list_eqb (located_strict inline_strict) a b.
(** definitions.rs:122-128, 225-231, 268-274, 397-403. *)
Definition term_defs_strict (a b : term_defs) : bool :=
  located_strict container_strict (td_term a) (td_term b) &&
  located_strict (list_eqb (located_strict container_strict)) (td_defs a) (td_defs b).
(** headers.rs:82-89. *)
Definition header_strict (a b : header) : bool :=
  (h_level a =? h_level b) && Bool.eqb (h_centered a) (h_centered b) && container_strict (h_content a) (h_content b).
(** tables.rs:345-354, 429-438. *)
Definition cell_strict (a b : cell) : bool :=
  match a, b with
  | CContent x, CContent y => container_strict x y
  | CSpan x, CSpan y => span_eqb x y
  | CAlign x, CAlign y => align_eqb x y
  | _, _ => false
  end.
Definition table_strict (a b : table) : bool :=
  Bool.eqb (t_centered a) (t_centered b) &&
  map_eqb cellpos_eqb (located_strict cell_strict) (t_cells a) (t_cells b).
(** blocks/mod.rs:334-360, lists/item.rs:78-87, lists/mod.rs:162-167;
    code.rs:139-144, math.rs:112-117 and placeholders.rs:101-106 are equality. *)
Fixpoint block_strict (a b : block) {struct a} : bool :=
  match a, b with
  | BBlockquote s, BBlockquote t => list_eqb str_eqb s t
  | BDefList x, BDefList y => list_eqb (located_strict term_defs_strict) x y
  | BDivider, BDivider => true
  | BHeader x, BHeader y => header_strict x y
  | BList x, BList y => list_eqb (located_strict item_strict) x y
  | BMath x, BMath y => math_eqb x y
  | BParagraph x, BParagraph y => list_eqb container_strict x y
  | BPlaceholder x, BPlaceholder y => placeholder_eqb x y
  | BCode x, BCode y => code_eqb x y
  | BTable x, BTable y => table_strict x y
  | _, _ => false
  end
with item_strict (a b : list_item) {struct a} : bool :=
  match a, b with
  | ListItem t s p c d, ListItem t' s' p' c' d' =>
      item_ty_eqb t t' && suffix_eqb s s' && (p =? p') && list_eqb (located_strict block_strict) c c' &&
      opt_eqb todo_eqb d d'
  end.
(** elements/mod.rs:87-96. *)
Definition page_strict (a b : page) : bool := list_eqb (located_strict block_strict) a b.
End Eq.

(** * Hashing *)

(** What is fed to a [Hasher]: strings, and numbers (discriminants, lengths,
    integers). *)
Inductive token := TkStr (s : str) | TkNum (n : N).
Definition tk (n : nat) : list token := [TkNum (N.of_nat n)].
Definition list_hash {A} (f : A -> list token) (l : list A) : list token := tk (length l) ++ flat_map f l.
Definition opt_hash {A} (f : A -> list token) (o : option A) : list token :=
  match o with None => tk 0 | Some x => tk 1 ++ f x end.
Definition str_hash (s : str) : list token := [TkStr s].
(** Insertion sort, for [sort_unstable] on strings; distinct keys. *)
Fixpoint insert_str (s : str) (l : list str) : list str :=
  match l with
  | [] => [s]
  | t :: l' => if str_leb s t then s :: t :: l' else t :: insert_str s l'
  end.
Definition sort_strs (l : list str) : list str := fold_right insert_str [] l.

Section Hash.
(** [URIReference]'s [Hash]. *)
Variable uri_hash : uri -> list token.
(** links/data.rs:207-224, links/description.rs (derived). *)
Fixpoint desc_hash (d : description) : list token :=
  match d with
  | DescText t => tk 0 ++ str_hash t
  | DescTransclusion x => tk 1 ++ link_data_hash x
  end
with link_data_hash (x : link_data) : list token :=
  match x with
  | LinkData u d p =>
      uri_hash u ++ match d with None => tk 0 | Some y => tk 1 ++ desc_hash y end ++
      match p with None => [] | Some m => flat_map str_hash (sort_strs (map fst m)) end
  end.
Definition date_hash (d : date) : list token :=
  [TkNum (Z.to_N (Z.abs (d_year d)))] ++ tk (if (d_year d <? 0)%Z then 1 else 0) ++ tk (d_month d) ++ tk (d_day d).
Definition link_hash (l : link) : list token :=
  match l with
  | LWiki d => tk 0 ++ link_data_hash d
  | LIndexed i d => tk 1 ++ [TkNum i] ++ link_data_hash d
  | LNamed n d => tk 2 ++ str_hash n ++ link_data_hash d
  | LDiary t d => tk 3 ++ date_hash t ++ link_data_hash d
  | LRaw d => tk 4 ++ link_data_hash d
  | LTransclusion d => tk 5 ++ link_data_hash d
  end.
Definition keyword_n (k : keyword) : nat :=
  match k with KTodo => 0 | KDone => 1 | KStarted => 2 | KFixme => 3 | KFixed => 4 | KXxx => 5 end.
Definition deco_n (k : deco) : nat :=
  match k with Bold => 0 | Italic => 1 | Strikeout => 2 | Superscript => 3 | Subscript => 4 end.
(** utils/mod.rs:194-201: the region is not hashed. *)
Definition located_hash {A} (f : A -> list token) (x : located A) : list token := f (l_val x).
Fixpoint dcontent_hash (c : dcontent) : list token :=
  match c with
  | DCText t => tk 0 ++ str_hash t
  | DCDeco k cs => tk 1 ++ tk (deco_n k) ++ list_hash (located_hash dcontent_hash) cs
  | DCKeyword k => tk 2 ++ tk (keyword_n k)
  | DCLink l => tk 3 ++ link_hash l
  end.
Definition comment_hash (c : comment) : list token :=
  match c with
  | CLine t => tk 0 ++ str_hash t
  | CMulti ls => tk 1 ++ list_hash str_hash ls
  end.
Definition inline_hash (i : inline) : list token :=
  match i with
  | IText t => tk 0 ++ str_hash t
  | IDeco k cs => tk 1 ++ tk (deco_n k) ++ list_hash (located_hash dcontent_hash) cs
  | IKeyword k => tk 2 ++ tk (keyword_n k)
  | ILink l => tk 3 ++ link_hash l
  | ITags ts => tk 4 ++ list_hash str_hash ts
  | ICode t => tk 5 ++ str_hash t
  | IMath t => tk 6 ++ str_hash t
  | IComment c => tk 7 ++ comment_hash c
  end.
Definition container_hash (c : container) : list token := list_hash (located_hash inline_hash) c.
Definition header_hash (h : header) : list token :=
  container_hash (h_content h) ++ tk (h_level h) ++ tk (if h_centered h then 1 else 0).
Definition cell_hash (c : cell) : list token :=
  match c with
  | CContent x => tk 0 ++ container_hash x
  | CSpan s => tk 1 ++ tk (match s with FromLeft => 0 | FromAbove => 1 end)
  | CAlign a => tk 2 ++ tk (match a with AlNone => 0 | AlLeft => 1 | AlCenter => 2 | AlRight => 3 end)
  end.
(** definitions.rs:76-80. *)
Definition def_value_hash (c : container) : list token := str_hash (container_display c).
Definition placeholder_hash (p : placeholder) : list token :=
  match p with
  | PTitle t => tk 0 ++ str_hash t
  | PNoHtml => tk 1
  | PTemplate t => tk 2 ++ str_hash t
  | PDate d => tk 3 ++ date_hash d
  | POther n v => tk 4 ++ str_hash n ++ str_hash v
  end.
Definition math_hash (m : math_block) : list token :=
  list_hash str_hash (mb_lines m) ++ opt_hash str_hash (mb_env m).
End Hash.
