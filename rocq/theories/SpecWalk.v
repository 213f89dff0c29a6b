(** What a walk through the elements of a page should visit, and where a
    position lies.  Written without [into_children]. *)
From Verif Require Import Base ModelSpan ModelAst ModelTable SpecTree SpecEq ModelTree.

(** * Walking *)

(** The parts of a decorated text count as inline elements. *)
Definition as_inline (n : node) : node :=
  match n with
  | NDeco (DCText t) => NInline (IText t)
  | NDeco (DCDeco k cs) => NInline (IDeco k cs)
  | NDeco (DCKeyword k) => NInline (IKeyword k)
  | NDeco (DCLink l) => NInline (ILink l)
  | _ => n
  end.
(** Cells, pairs and bundles are not elements of their own. *)
Definition is_element (n : node) : bool :=
  match n with NCell _ | NPair _ | NBundle _ => false | _ => true end.
(** Every element of a page, at every depth. *)
Definition all_elements (p : page) : list (region * node) :=
  map (fun rn => (fst rn, as_inline (snd rn))) (filter (fun rn => is_element (snd rn)) (elements p)).

Definition node_of (e : element) : node :=
  match e with
  | EBlock b => NBlock b
  | EInline i => NInline i
  | EInlineBlock (IBItem i) => NItem i
  | EInlineBlock (IBTerm c) => NTerm c
  | EInlineBlock (IBDef c) => NDef c
  end.
Definition visited (l : list (located element)) : list (region * node) :=
  map (fun x => (l_reg x, node_of (l_val x))) l.

(** Level by level: first all children, then all grandchildren, and so on. *)
Inductive by_levels (kids : located element -> list (located element)) : list (located element) -> list (list (located element)) -> Prop :=
| no_level : by_levels kids [] []
| one_level q ls : q <> [] -> by_levels kids (flat_map kids q) ls -> by_levels kids q (q :: ls).

(** In the order of the text, without overlap, between [lo] and [hi]. *)
Fixpoint in_text_order (lo : nat) (l : list (located element)) (hi : nat) : Prop :=
  match l with
  | [] => lo <= hi
  | x :: l' => lo <= r_off (l_reg x) /\ in_text_order (r_off (l_reg x) + r_len (l_reg x)) l' hi
  end.

Fixpoint tableless (b : block) : Prop :=
  match b with
  | BTable _ => False
  | BList items => all (fun x => tableless_item (l_val x)) items
  | _ => True
  end
with tableless_item (i : list_item) : Prop :=
  match i with ListItem _ _ _ cs _ => all (fun x => tableless (l_val x)) cs end.

(** * Positions *)

(** The node reached by a path of child numbers. *)
Fixpoint at_path (path : list nat) (ts : list rtree) : option rtree :=
  match path with
  | [] => None
  | [i] => nth_error ts i
  | i :: path' => match nth_error ts i with
                  | Some (RNode _ _ kids) => at_path path' kids
                  | None => None
                  end
  end.
Definition ancestor (a b : list nat) : Prop := exists c, b = a ++ c.

Definition within (r : region) (i : nat) : Prop := r_off r <= i < r_off r + r_len r.
