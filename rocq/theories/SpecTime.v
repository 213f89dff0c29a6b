(** What was called, how often and for how long. *)
From Verif Require Import Base ModelTime.

(** The calls that returned, with the time each took. *)
Fixpoint returned (c : call) : list (str * N) :=
  match c with
  | Call ctx x ended inner => flat_map returned inner ++ (if ended then [(ctx, x)] else [])
  end.
Definition of_label (ctx : str) (l : list (str * N)) : list N := map snd (filter (fun e => str_eqb (fst e) ctx) l).
(** The number of calls and the sum of their times. *)
Definition times (ctx : str) (l : list (str * N)) : nat := length (of_label ctx l).
Definition total (ctx : str) (l : list (str * N)) : N := fold_right N.add 0%N (of_label ctx l).

(** A table that says this, one entry for each label called. *)
Definition tells (l : list (str * N)) (t : list (str * (nat * N))) : Prop :=
  NoDup (map fst t) /\ forall ctx n x, In (ctx, (n, x)) t <-> 0 < n /\ n = times ctx l /\ x = total ctx l.
