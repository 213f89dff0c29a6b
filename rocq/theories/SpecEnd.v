(** The end of a text. *)
From Verif Require Import Base.

(** The text does not end with a line end: it is empty, or its last byte is
    neither a newline nor a carriage return. *)
Definition unended (t : str) : Prop := forall x b, t = x ++ [b] -> b <> b_nl /\ b <> b_cr.
