(** The calendar, and what values made from JavaScript should be. *)
From Verif Require Import Base ModelSpan ModelAst ModelTable.
From Coq Require Import ZArith.

(** The Gregorian calendar. *)
Definition leap_year (y : Z) : Prop := (4 | y)%Z /\ (~ (100 | y)%Z \/ (400 | y)%Z).
Inductive month_length (y : Z) : nat -> nat -> Prop :=
| ml_31 m : In m [1; 3; 5; 7; 8; 10; 12] -> month_length y m 31
| ml_30 m : In m [4; 6; 9; 11] -> month_length y m 30
| ml_29 : leap_year y -> month_length y 2 29
| ml_28 : ~ leap_year y -> month_length y 2 28.
Definition real_date (d : date) : Prop := exists k, month_length (d_year d) (d_month d) k /\ 1 <= d_day d <= k.
(** The day after. *)
Inductive next_day : date -> date -> Prop :=
| nd_day y m d k : month_length y m k -> 1 <= d < k -> next_day (Date y m d) (Date y m (S d))
| nd_month y m k : month_length y m k -> m < 12 -> next_day (Date y m k) (Date y (S m) 1)
| nd_year y : next_day (Date y 12 31) (Date (y + 1) 1 1).
(** Days counted from the first of January 1970. *)
Inductive day_number : date -> Z -> Prop :=
| dn_epoch : day_number (Date 1970 1 1) 0
| dn_next a b n : day_number a n -> next_day a b -> day_number b (n + 1)
| dn_previous a b n : day_number b n -> next_day a b -> day_number a (n - 1).

(** The objects among the entries of a matrix, row by row; the values in
    memory. *)
Definition objects (rows : list (option (list (option nat)))) : list nat :=
  flat_map (fun r => match r with
                     | Some row => flat_map (fun x => match x with Some p => [p] | None => [] end) row
                     | None => []
                     end) rows.
Definition alive (h : list (nat * located cell)) (p : nat) : Prop := exists c, In (p, c) h.
