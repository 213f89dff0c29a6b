(** What the entry points and --include should do. *)
From Verif Require Import Base ModelSpan ModelAst ModelElem.

(** The text begins with something visible. *)
Definition starts_visible (text : str) : Prop :=
  exists b r, text = b :: r /\ is_space b = false /\ b <> b_nl /\ b <> b_cr.

(** A number as it can be written on the command line. *)
Definition digits_value (l : str) : N := fold_left (fun a b => (10 * a + N.of_nat (byte_n b - 48))%N) l 0%N.
Definition written_number (s : str) (n : N) : Prop :=
  exists ds, (s = ds \/ s = bs "+" ++ ds) /\ ds <> [] /\ Forall (fun b => is_digit b = true) ds /\
    digits_value ds = n /\ (n < 18446744073709551616)%N.
