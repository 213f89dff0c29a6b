(** Strings of JavaScript. *)
From Verif Require Import Base ModelProps SpecTree.

(** Every surrogate has its other half. *)
Definition whole (w : jstr) : Prop := Forall (fun j => exists c, j = JC c /\ utf8_char c) w.
