(** Errors of the parsers and how they are displayed. *)
From Verif Require Import Base ModelSpan ModelElem.

(** errors.rs:7-12 [LangParserError]. *)
Inductive perror := PError (ctx : str) (input : span) (next : option perror).
Definition pe_input (e : perror) : span := let 'PError _ s _ := e in s.

(** errors.rs:71-77 [from_ctx], 81-94 [from_error_kind] and
    [from_external_error] with the description of the kind. *)
Definition from_ctx (s : span) (ctx : str) : perror := PError ctx s None.
(** errors.rs:96-100 [append], 121-127 [add_context]. *)
Definition add_context (s : span) (ctx : str) (other : perror) : perror := PError ctx s (Some other).
(** errors.rs:102-108 [from_char]; [c] is the character in UTF-8. *)
Definition from_char (s : span) (c : str) : perror := PError (bs "Char " ++ c) s None.
(** errors.rs:110-117 [or]. *)
Definition err_or (a b : perror) : perror :=
  if sp_start (pe_input b) <? sp_start (pe_input a) then a else b.
(** nom's [alt]: the errors of the alternatives joined by [or] from the left,
    under an error of the kind [Alt]. *)
Definition alt_error (s : span) (e : perror) (es : list perror) : perror :=
  add_context s (bs "Alternative") (fold_left err_or es e).

(** Rust [str::lines().next().unwrap_or_default()]: up to the first newline,
    without a carriage return directly before it.  (Older versions of the
    standard library also drop a carriage return at the end of the text.) *)
Fixpoint first_line (l : str) : str :=
  match l with
  | [] => []
  | b :: l' => if is_nl b || (beqb b b_cr && starts_with [b_nl] l') then [] else b :: first_line l'
  end.
(** Rust [chars().take(n)] on UTF-8 text. *)
Fixpoint take_chars (n : nat) (l : str) : str :=
  match l with
  | [] => []
  | b :: l' => if is_cont b then b :: take_chars n l' else match n with 0 => [] | S m => b :: take_chars m l' end
  end.

(** errors.rs:25-57 [fmt]. *)
Fixpoint display (e : perror) : str :=
  let 'PError ctx s next := e in
  ctx ++ bs ": Line " ++ dec (N.of_nat (line s)) ++ bs ", Column " ++ dec (N.of_nat (column s)) ++ [b_nl] ++
  take_chars 100 (first_line (remaining s)) ++ [b_nl] ++
  match next with Some e' => display e' | None => [] end.
