(** Walking through elements: [IntoChildren] of
    /repo/vimwiki-core/src/lang/elements, [Region] of elements/utils/region.rs,
    and the walk of /repo/vimwiki-wasm/src/elements.rs. *)
From Verif Require Import Base ModelSpan ModelComb ModelAst ModelTable.

(** * elements/utils/region.rs *)

(** [usize] has 64 bits here; an addition that overflows panics (debug build)
    and is [None]. *)
Definition usize_end : N := 18446744073709551616%N.
Definition add_usize (a b : N) : option N := if (a + b <? usize_end)%N then Some (a + b)%N else None.
(** The offset and length of a region; the depth plays no part here. *)
Record extent := Extent { e_off : N; e_len : N }.
(** region.rs:47-49 [contains]: the second comparison, hence the addition, is
    only reached if the first is true. *)
Definition contains (r : extent) (i : N) : option bool :=
  if (e_off r <=? i)%N
  then match add_usize (e_off r) (e_len r) with
       | Some e => Some (i <? e)%N
       | None => None
       end
  else Some false.
(** region.rs:83-94 [From<Range>]. *)
Definition of_range (a b : N) : extent := Extent a (if (a <=? b)%N then b - a else 0)%N.
(** region.rs:96-109 [From<RangeInclusive>]. *)
Definition of_range_incl (a b : N) : option extent :=
  match add_usize b 1 with
  | Some e => Some (Extent a (if (a <=? e)%N then e - a else 0)%N)
  | None => None
  end.
(** region.rs:111-116 [From<RangeTo>]. *)
Definition of_range_to (b : N) : extent := Extent 0 b.
(** region.rs:118-123 [From<RangeToInclusive>]. *)
Definition of_range_to_incl (b : N) : option extent := option_map (Extent 0) (add_usize b 1).
(** region.rs:125-130 [From<(usize, usize)>]. *)
Definition of_coords (a b : N) : extent := Extent a b.
(** region.rs:66-69 [is_empty]. *)
Definition extent_empty (r : extent) : bool := (e_len r =? 0)%N.

(** [contains] on the regions of parsed elements, which are shorter than a
    [usize] can count. *)
Definition region_contains (r : region) (i : nat) : bool := (r_off r <=? i) && (i <? r_off r + r_len r).

(** * elements/mod.rs *)

(** elements/mod.rs:197-201 [InlineBlockElement], 105-109 [Element]. *)
Inductive inline_block :=
| IBItem (i : list_item)
| IBTerm (c : container)
| IBDef (c : container).
Inductive element :=
| EBlock (b : block)
| EInline (i : inline)
| EInlineBlock (x : inline_block).

(** * [into_children] *)

(** inline/typefaces.rs:146-153 [into_inline_element]. *)
Definition dc_inline (d : dcontent) : inline :=
  match d with
  | DCText t => IText t
  | DCDeco k cs => IDeco k cs
  | DCKeyword k => IKeyword k
  | DCLink l => ILink l
  end.
(** inline/mod.rs:77-82, typefaces.rs:376-391. *)
Definition inline_children (i : inline) : list (located inline) :=
  match i with
  | IDeco _ cs => map (lmap dc_inline) cs
  | _ => []
  end.
(** inline/mod.rs:176-178. *)
Definition container_children (c : container) : list (located inline) := c.
(** headers.rs:77-79. *)
Definition header_children (h : header) : list (located inline) := container_children (h_content h).
(** paragraphs.rs:82-84. *)
Definition paragraph_children (ls : list container) : list (located inline) := flat_map container_children ls.
(** tables.rs:421-426, 337-342: the cells come in the order in which the hash
    map yields them. *)
Definition cell_children (c : cell) : list (located inline) :=
  match c with CContent x => container_children x | _ => [] end.
Definition table_children (t : table) : list (located inline) :=
  flat_map (fun kv => cell_children (l_val (snd kv))) (t_cells t).
(** definitions.rs:279-288. *)
Definition td_children (t : term_defs) : list (located inline_block) :=
  lmap IBTerm (td_term t) :: map (lmap IBDef) (l_val (td_defs t)).
(** definitions.rs:361-366. *)
Definition dl_children (d : def_list) : list (located inline_block) :=
  flat_map (fun x => td_children (l_val x)) d.
(** lists/mod.rs:147-151. *)
Definition list_children (items : list (located list_item)) : list (located inline_block) :=
  map (lmap IBItem) items.
(** lists/item.rs:73-75, lists/mod.rs:270-272. *)
Definition item_children (i : list_item) : list (located element) := map (lmap EBlock) (li_contents i).
(** blocks/mod.rs:302-331. *)
Definition block_children (b : block) : list (located element) :=
  match b with
  | BDefList d => map (lmap EInlineBlock) (dl_children d)
  | BHeader h => map (lmap EInline) (header_children h)
  | BList items => map (lmap EInlineBlock) (list_children items)
  | BParagraph ls => map (lmap EInline) (paragraph_children ls)
  | BTable t => map (lmap EInline) (table_children t)
  | _ => []
  end.
(** elements/mod.rs:236-250. *)
Definition inline_block_children (x : inline_block) : list (located element) :=
  match x with
  | IBItem i => item_children i
  | IBTerm c | IBDef c => map (lmap EInline) (container_children c)
  end.
(** elements/mod.rs:137-147. *)
Definition element_children (e : element) : list (located element) :=
  match e with
  | EBlock b => block_children b
  | EInline i => map (lmap EInline) (inline_children i)
  | EInlineBlock x => inline_block_children x
  end.
(** elements/mod.rs:77-79; vimwiki-wasm/src/elements.rs:1785-1798 [children]
    wraps each child as an [Element]. *)
Definition page_children (p : page) : list (located element) := map (lmap EBlock) p.

(** vimwiki-wasm/src/elements.rs:1802-1839 [descendants]: the loop, as long as
    there is fuel. *)
Fixpoint descend (fuel : nat) (queue : list (located element)) : option (list (located element)) :=
  match queue with
  | [] => Some []
  | next :: queue' =>
      match fuel with
      | 0 => None
      | S f => option_map (cons next) (descend f (queue' ++ element_children (l_val next)))
      end
  end.
