(** Line ends: a newline alone or a carriage return and a newline. *)
From Verif Require Import Base ModelSpan ModelComb ModelAst SpecSpan SpecEq.

(** [l] with every line ended by a newline alone: the carriage returns that
    stand directly before a newline are left out. *)
Fixpoint unix (l : str) : str :=
  match l with
  | [] => []
  | b :: l' => if beqb b b_cr && starts_with [b_nl] l' then unix l' else b :: unix l'
  end.

(** [l] with every line ended by a carriage return and a newline. *)
Definition windows (l : str) : str := flat_map (fun b => if is_nl b then [b_cr; b_nl] else [b]) l.

(** The texts have the same lines, and a carriage return ends a line wherever
    there is one. *)
Definition same_lines (s t : str) : Prop := unix s = unix t /\ ~ In b_cr (unix s).

(** How many lines of [s] end before the place of [b]. *)
Definition lines_before (s : str) (b : located block) : nat := newlines (firstn (r_off (l_reg b)) s).

(** The blocks [p] of [s] say the same as the blocks [q] of [t], part by part,
    and begin on the same lines. *)
Definition same_reading (s t : str) (p q : page) : Prop :=
  full_content_of (fun u => u) p = full_content_of (fun u => u) q /\ map (lines_before s) p = map (lines_before t) q.
