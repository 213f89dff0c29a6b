(** Model of /repo/vimwiki-core/src/lang/elements/blocks/tables.rs. *)
From Verif Require Import Base ModelSpan ModelAst.

(** [HashMap] insertion used by [collect] (tables.rs:125-126). *)
Fixpoint cells_insert (k : cellpos) (v : located cell) (m : list (cellpos * located cell)) :=
  match m with
  | [] => [(k, v)]
  | (k', v') :: m' => if cellpos_eqb k k' then (k, v) :: m' else (k', v') :: cells_insert k v m'
  end.
Definition cells_collect (l : list (cellpos * located cell)) :=
  fold_left (fun m kv => cells_insert (fst kv) (snd kv) m) l [].

(** tables.rs:121-140 [Table::new]. *)
Definition table_new (l : list (cellpos * located cell)) (centered : bool) : table :=
  let cells := cells_collect l in
  Table cells
    (fold_left (fun a kv => Nat.max a (cp_row (fst kv) + 1)) cells 0)
    (fold_left (fun a kv => Nat.max a (cp_col (fst kv) + 1)) cells 0)
    centered.

(** tables.rs:270-276 [get_cell]. *)
Fixpoint cells_get (k : cellpos) (m : list (cellpos * located cell)) : option (located cell) :=
  match m with
  | [] => None
  | (k', v) :: m' => if cellpos_eqb k k' then Some v else cells_get k m'
  end.
Definition get_cell (t : table) (r c : nat) : option (located cell) :=
  cells_get (CellPos r c) (t_cells t).

Definition is_content (c : cell) : bool := match c with CContent _ => true | _ => false end.
Definition is_align (c : cell) : bool := match c with CAlign _ => true | _ => false end.
Definition is_span (c : cell) : bool := match c with CSpan _ => true | _ => false end.

(** tables.rs:400-415 [get_span], [get_align]. *)
Definition get_span (c : cell) : option cell_span := match c with CSpan s => Some s | _ => None end.
Definition get_align (c : cell) : option col_align := match c with CAlign a => Some a | _ => None end.

(** tables.rs:696-702 [Row::is_divider_row]. *)
Definition is_divider_row (t : table) (r : nat) : bool :=
  match get_cell t r 0 with Some c => is_align (l_val c) | None => false end.

(** tables.rs:521-571 [Rows]: row indices [0 .. row_cnt). *)
Definition rows (t : table) : list nat := seq 0 (t_row_cnt t).
(** tables.rs:806-855 [Columns]. *)
Definition columns (t : table) : list nat := seq 0 (t_col_cnt t).

(** The items yielded by an iterator that walks [i, i+1, ...] through [get]
    and stops at the first missing cell.  Fuel is the number of stored cells
    plus one: the walked keys are pairwise distinct, so the walk ends sooner. *)
Fixpoint walk (fuel : nat) (get : nat -> option (located cell)) (i : nat)
  : list (located cell) :=
  match fuel with
  | 0 => []
  | S f => match get i with
           | Some c => c :: walk f get (S i)
           | None => []
           end
  end.

(** tables.rs:716-725 [Row::next]; 231-233 [row]. *)
Definition row (t : table) (r : nat) : list (located cell) :=
  walk (S (length (t_cells t))) (fun c => get_cell t r c) 0.
(** tables.rs:878-887 [Column::next]; 246-248 [column]. *)
Definition column (t : table) (c : nat) : list (located cell) :=
  walk (S (length (t_cells t))) (fun r => get_cell t r c) 0.

(** tables.rs:705-713, 866-875 [Row::has_content], [Column::has_content]. *)
Definition row_has_content (t : table) (r : nat) : bool :=
  existsb (fun c => is_content (l_val c)) (row t r).

(** tables.rs:960-1012 [Cells::next]: one step of the iterator from
    [(row, col)], and the full run.  [None] ends a [for] loop. *)
Definition cells_step (t : table) (p : nat * nat) : option (located cell) * (nat * nat) :=
  let '(r, c) := p in
  (get_cell t r c,
   if c + 1 <? t_col_cnt t then (r, c + 1)
   else if r + 1 <? t_row_cnt t then (r + 1, 0)
   else (t_row_cnt t, t_col_cnt t)).
Fixpoint cells_run (fuel : nat) (t : table) (p : nat * nat) : list (located cell) :=
  match fuel with
  | 0 => []
  | S f => match cells_step t p with
           | (Some c, p') => c :: cells_run f t p'
           | (None, _) => []
           end
  end.
Definition cells (t : table) : list (located cell) :=
  cells_run (S (t_row_cnt t * t_col_cnt t)) t (0, 0).

(** tables.rs:174-182 [get_divider_row_index]. *)
Definition get_divider_row_index (t : table) : option nat :=
  find (is_divider_row t) (rows t).

(** tables.rs:575-627 [HeaderRows]: indices below the first divider that are
    not dividers. *)
Definition header_rows (t : table) : list nat :=
  filter (fun r => negb (is_divider_row t r))
    (seq 0 (match get_divider_row_index t with Some i => i | None => 0 end)).

(** tables.rs:631-685 [BodyRows]. *)
Definition body_rows (t : table) : list nat :=
  let i := match get_divider_row_index t with Some i => i + 1 | None => 0 end in
  filter (fun r => negb (is_divider_row t r)) (seq i (t_row_cnt t - i)).

(** tables.rs:188-192 [get_column_alignment]. *)
Fixpoint find_align (l : list (located cell)) : option col_align :=
  match l with
  | [] => None
  | c :: l' => match get_align (l_val c) with Some a => Some a | None => find_align l' end
  end.
Definition get_column_alignment (t : table) (c : nat) : col_align :=
  match find_align (column t c) with Some a => a | None => AlNone end.

(** tables.rs:293-331 [get_cell_rowspan], [get_cell_colspan]. *)
Definition span_is (k : cell_span) (c : located cell) : bool :=
  match k, get_span (l_val c) with
  | FromAbove, Some FromAbove | FromLeft, Some FromLeft => true
  | _, _ => false
  end.
Definition span_of_iter (k : cell_span) (l : list (located cell)) : nat :=
  match l with
  | c :: l' => if is_content (l_val c) then count_while (span_is k) l' + 1 else 0
  | [] => 0
  end.
Definition get_cell_rowspan (t : table) (r c : nat) : nat :=
  span_of_iter FromAbove (skipn r (column t c)).
Definition get_cell_colspan (t : table) (r c : nat) : nat :=
  span_of_iter FromLeft (skipn c (row t r)).
