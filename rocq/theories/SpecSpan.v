(** What the cursor coordinates and the line utilities must compute, stated
    on byte strings without reference to the model's helpers. *)
From Verif Require Import Base ModelSpan ModelComb SpecDoc SpecTree.

(** [pat] is at position [k] of [l]. *)
Definition found (pat l : str) (k : nat) : Prop := exists a b, l = a ++ pat ++ b /\ length a = k.

(** A line terminator is at position [k] of [l]. *)
Definition eol_found (l : str) (k : nat) : Prop := found [b_nl] l k \/ found [b_cr; b_nl] l k.

(** [n] is the first position of [l] holding a line terminator or one of
    [pats], or the end of [l]. *)
Definition first_stop (pats : list str) (l : str) (n : nat) : Prop :=
  n <= length l /\
  (forall k, k < n -> ~ eol_found l k /\ forall pat, In pat pats -> ~ found pat l k) /\
  (n = length l \/ eol_found l n \/ exists pat, In pat pats /\ found pat l n).

(** [r] is the result of taking the next [n] bytes of [s]. *)
Definition takes (s : span) (n : nat) (r : res span) : Prop :=
  n <= length (remaining s) /\
  r = Ok (Span (sp_inner s) (sp_start s + n) (sp_end s) (sp_depth s))
         (Span (sp_inner s) (sp_start s) (sp_start s + n) (sp_depth s)).

(** The line holding position [i] of [inner] begins with [l], which is
    followed by position [i]. *)
Definition line_prefix (inner : str) (i : nat) (l : str) : Prop :=
  exists pre, firstn i inner = pre ++ l /\ no_nl l /\
    (pre = [] \/ exists p, pre = p ++ [b_nl]).

(** Number of newlines in [l]. *)
Fixpoint newlines (l : str) : nat :=
  match l with [] => 0 | b :: l' => (if is_nl b then 1 else 0) + newlines l' end.

(** 1-based coordinates of the byte at [i]: the line, and the number of
    characters before it on that line plus one. *)
Definition coords (inner : str) (i ln col : nat) : Prop :=
  ln = S (newlines (firstn i inner)) /\
  exists l cs, line_prefix inner i l /\ Forall utf8_char cs /\ l = concat cs /\ col = S (length cs).

(** [t] is [l] without the spaces and tabs at its ends. *)
Definition trimmed (l a t b : str) : Prop :=
  l = a ++ t ++ b /\ blanks a /\ blanks b /\
  (forall c r, t = c :: r -> is_space c = false) /\
  (forall c r, t = r ++ [c] -> is_space c = false) /\
  (t = [] -> b = []).

(** The next line of [l]: its content, its terminator and what follows. *)
Definition next_line (l c e r : str) : Prop :=
  l = c ++ e ++ r /\ no_nl c /\ first_stop [] l (length c) /\
  (e = [b_nl] \/ e = [b_cr; b_nl] \/ (e = [] /\ r = [])).

(** [n] bytes have been consumed: [s'] is [s] moved forward by [n]. *)
Definition moved (s : span) (n : nat) (s' : span) : Prop :=
  n <= length (remaining s) /\
  s' = Span (sp_inner s) (sp_start s + n) (sp_end s) (sp_depth s).

(** A blank line: blanks, then the end of the line; not completely empty. *)
Definition blank_at (s : span) (c e r : str) : Prop :=
  next_line (remaining s) c e r /\ blanks c /\ c ++ e <> [].

(** The character of a divider. *)
Definition b_hyphen : byte := x2d.

(** [s] is a line of at least four hyphens and nothing else. *)
Definition divider_at (s : span) (n : nat) (e r : str) : Prop :=
  4 <= n /\ next_line (remaining s) (repeat b_hyphen n) e r.
