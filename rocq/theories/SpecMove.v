(** Regions in a text that stands [n] bytes further to the right. *)
From Verif Require Import Base ModelSpan ModelComb ModelAst SpecSpan SpecEq.

Definition shift (n : nat) (r : region) : region := Region (n + r_off r) (r_len r) (r_depth r).

(** The blocks of a text as blocks of a text that has [n] bytes more in front:
    the same elements, every one of them [n] bytes further. *)
Definition moved_content (n : nat) (p : page) : page := n_page (fun u => u) (shift n) (n_cont (fun u => u) (shift n)) p.

(** Lines with nothing but spaces and tabs, each with its line end. *)
Inductive blank_lines : str -> Prop :=
| BlankNone : blank_lines []
| BlankMore a e g : Forall (fun b => is_space b = true) a -> e = [b_nl] \/ e = [b_cr; b_nl] -> blank_lines g -> blank_lines (a ++ e ++ g).
