(** What the text of an error says. *)
From Verif Require Import Base ModelSpan ModelElem ModelErr SpecTree SpecSpan.

(** The contexts and inputs of an error and of those behind it. *)
Fixpoint trail (e : perror) : list (str * span) :=
  let 'PError ctx s next := e in (ctx, s) :: match next with Some e' => trail e' | None => [] end.

(** The characters before the first line end. *)
Fixpoint line_chars (cs : list str) : list str :=
  match cs with
  | [] => []
  | c :: cs' => if str_eqb c [b_nl] then []
                else match cs' with
                     | d :: _ => if str_eqb c [b_cr] && str_eqb d [b_nl] then [] else c :: line_chars cs'
                     | [] => [c]
                     end
  end.

(** Two lines of text: the context with line and column of the place where the
    input stands, and at most a hundred characters of that line from there on. *)
Definition says (x : str * span) (text : str) : Prop :=
  let (ctx, s) := x in
  exists ln col cs, coords (sp_inner s) (sp_start s) ln col /\ Forall utf8_char cs /\ remaining s = concat cs /\
    text = ctx ++ bs ": Line " ++ dec (N.of_nat ln) ++ bs ", Column " ++ dec (N.of_nat col) ++ [b_nl] ++
           concat (firstn 100 (line_chars cs)) ++ [b_nl].

(** The input stands inside a text in UTF-8, between two characters. *)
Definition sound (s : span) : Prop :=
  sp_start s <= length (sp_inner s) /\ valid_utf8 (firstn (sp_start s) (sp_inner s)) /\ valid_utf8 (remaining s).
