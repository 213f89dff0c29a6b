(** What users rely on when they query the elements of a document, stated
    without the methods of ModelTable and ModelElem. *)
From Coq Require Import QArith Permutation.
From Verif Require Import Base ModelSpan ModelAst.
Local Open Scope nat_scope.

(** * Tables *)

(** The stored cell of a position; a table is a finite map, so positions are
    stored once. *)
Definition is_map (t : table) : Prop := NoDup (map fst (t_cells t)).
Definition at_ (t : table) (r c : nat) (x : located cell) : Prop :=
  In (CellPos r c, x) (t_cells t).
Definition present (t : table) (r c : nat) : Prop := exists x, at_ t r c x.
Definition counts_ok (t : table) : Prop :=
  forall r c, present t r c -> r < t_row_cnt t /\ c < t_col_cnt t.

(** Every position of the grid is stored. *)
Definition rectangular (t : table) : Prop :=
  forall r c, r < t_row_cnt t -> c < t_col_cnt t -> present t r c.
(** Every row is filled from the left. *)
Definition rows_filled (t : table) : Prop :=
  forall r c c', present t r c -> c' < c -> present t r c'.

(** A row whose first cell is an alignment marker, and the first such row. *)
Definition divider_row (t : table) (r : nat) : Prop :=
  exists x a, at_ t r 0 x /\ l_val x = CAlign a.
Definition first_divider (t : table) (d : nat) : Prop :=
  d < t_row_cnt t /\ divider_row t d /\ forall r, r < d -> ~ divider_row t r.

(** Exactly [n] consecutive cells [get 1 .. get n] are spans of kind [k]. *)
Definition span_run (get : nat -> located cell -> Prop) (k : cell_span) (n : nat) : Prop :=
  (forall i, 1 <= i <= n -> exists x, get i x /\ l_val x = CSpan k) /\
  ~ (exists x, get (n + 1) x /\ l_val x = CSpan k).

(** * Labels of list items *)

Definition letters (lower : bool) (l : str) : Prop :=
  l <> [] /\ Forall (fun b => if lower then is_lower b = true else is_upper b = true) l.
(** a, b, ..., z, aa, ab, ...: shorter first, then alphabetically. *)
Fixpoint alphabetical (a b : str) : Prop :=
  match a, b with
  | x :: a', y :: b' => byte_n x < byte_n y \/ (x = y /\ alphabetical a' b')
  | _, _ => False
  end.
Definition comes_before (a b : str) : Prop :=
  length a < length b \/ (length a = length b /\ alphabetical a b).

(** * Todo progress *)

(** The todo marks that decide the progress of an item: its own mark, unless
    some item of its sublists (at any depth) has a mark that counts; rejected
    marks never count. *)
Definition own_mark (t : option todo_status) : list todo_status :=
  match t with None | Some TodoRejected => [] | Some x => [x] end.
Fixpoint marks (i : list_item) : list todo_status :=
  match i with
  | ListItem _ _ _ contents todo =>
      match flat_map (fun c => block_marks (l_val c)) contents with
      | [] => own_mark todo
      | l => l
      end
  end
with block_marks (b : block) : list todo_status :=
  match b with
  | BList items => flat_map (fun i => marks (l_val i)) items
  | _ => []
  end.

(** The items of the lists directly inside an item. *)
Definition sub_items (i : list_item) : list list_item :=
  flat_map (fun c => match l_val c with BList items => map l_val items | _ => [] end) (li_contents i).
Definition sumQ (l : list Q) : Q := fold_right Qplus 0%Q l.

(** * The words of inline elements *)

Definition keyword_word (k : keyword) : str :=
  match k with
  | KTodo => bs "TODO" | KDone => bs "DONE" | KStarted => bs "STARTED"
  | KFixme => bs "FIXME" | KFixed => bs "FIXED" | KXxx => bs "XXX"
  end.

(** The text a reader sees, markup removed.  Links are read as their text
    description; other links, tags and comments are left out. *)
Inductive dreads : dcontent -> str -> Prop :=
| dreads_text t : dreads (DCText t) t
| dreads_keyword k : dreads (DCKeyword k) (keyword_word k)
| dreads_link l t p u :
    (l = LWiki (LinkData u (Some (DescText t)) p) \/
     (exists i, l = LIndexed i (LinkData u (Some (DescText t)) p)) \/
     (exists n, l = LNamed n (LinkData u (Some (DescText t)) p)) \/
     (exists d, l = LDiary d (LinkData u (Some (DescText t)) p))) ->
    dreads (DCLink l) t
| dreads_deco k cs s : dreads_all cs s -> dreads (DCDeco k cs) s
with dreads_all : list (located dcontent) -> str -> Prop :=
| dreads_nil : dreads_all [] []
| dreads_cons c cs s s' : dreads (l_val c) s -> dreads_all cs s' -> dreads_all (c :: cs) (s ++ s').

Inductive reads : inline -> str -> Prop :=
| reads_text t : reads (IText t) t
| reads_code t : reads (ICode t) t
| reads_math t : reads (IMath t) t
| reads_keyword k : reads (IKeyword k) (keyword_word k)
| reads_link l t : dreads (DCLink l) t -> reads (ILink l) t
| reads_deco k cs s : dreads_all cs s -> reads (IDeco k cs) s.

Inductive reads_all : container -> str -> Prop :=
| reads_nil : reads_all [] []
| reads_cons c cs s s' : reads (l_val c) s -> reads_all cs s' -> reads_all (c :: cs) (s ++ s').

(** * Substrings *)

Definition occurs (p l : str) : Prop := exists a b, l = a ++ p ++ b.
Definition escape_triple (t : str) : Prop :=
  exists h1 h2, t = [x25; h1; h2] /\
    (forall h, h = h1 \/ h = h2 ->
       is_digit h = true \/ 65 <= byte_n h <= 70 \/ 97 <= byte_n h <= 102).
