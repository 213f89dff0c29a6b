(** What the claims about saved pages and [vimwiki inspect] talk about. *)
From Verif Require Import Base ModelSpan ModelAst ModelPath ModelCli ModelJson SpecEq.

Section Some.
Context {A : Type}.
Variable P : A -> Prop.
Fixpoint some (l : list A) : Prop := match l with [] => False | x :: l' => P x \/ some l' end.
End Some.

(** A definition list is somewhere on the page. *)
Fixpoint has_defs (b : block) : Prop :=
  match b with
  | BDefList d => d <> []
  | BList items => some (fun x => item_defs (l_val x)) items
  | _ => False
  end
with item_defs (i : list_item) : Prop :=
  match i with ListItem _ _ _ c _ => some (fun x => has_defs (l_val x)) c end.
Definition page_defs (p : page) : Prop := some (fun x => has_defs (l_val x)) p.

(** How deep lists are nested. *)
Fixpoint levels (b : block) : nat :=
  match b with
  | BList [] => 0
  | BList items => S (fold_right (fun x n => Nat.max (item_levels (l_val x)) n) 0 items)
  | _ => 0
  end
with item_levels (i : list_item) : nat :=
  match i with ListItem _ _ _ c _ => fold_right (fun x n => Nat.max (levels (l_val x)) n) 0 c end.
Definition page_levels (p : page) : nat := fold_right (fun x n => Nat.max (levels (l_val x)) n) 0 p.

(** Text is not decorated, and no link is described by another link. *)
Definition simple_inline (i : inline) : Prop :=
  match i with
  | IDeco _ _ => False
  | ILink l => match ld_desc (link_get_data l) with Some (DescTransclusion _) => False | _ => True end
  | _ => True
  end.
Definition simple_cont (c : container) : Prop := all (fun x => simple_inline (l_val x)) c.
Fixpoint simple_block (b : block) : Prop :=
  match b with
  | BHeader h => simple_cont (h_content h)
  | BList items => all (fun x => simple_item (l_val x)) items
  | BParagraph ls => all simple_cont ls
  | BTable t => all (fun kv => match l_val (snd kv) with CContent c => simple_cont c | _ => True end) (t_cells t)
  | _ => True
  end
with simple_item (i : list_item) : Prop :=
  match i with ListItem _ _ _ c _ => all (fun x => simple_block (l_val x)) c end.
Definition simple_page (p : page) : Prop := all (fun x => simple_block (l_val x)) p.

(** [x] is a part of [j]. *)
Inductive within (x : json) : json -> Prop :=
| within_here : within x x
| within_arr l y : In y l -> within x y -> within x (JArr l)
| within_obj fs k y : In (k, y) fs -> within x y -> within x (JObj fs).

(** What the program has loaded. *)
Definition loaded_pages (a : ast) : list page := flat_map (fun w => map wf_data (aw_files w)) a.
Definition loaded_paths (a : ast) : list path := flat_map (fun w => aw_path w :: map wf_path (aw_files w)) a.
