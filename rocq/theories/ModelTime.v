(** The timekeeper of the parsers (cargo feature "timekeeper"). *)
From Coq Require Import Permutation.
From Verif Require Import Base ModelElem.

(** One call of a parser wrapped by [context]: its label, the nanoseconds it
    took, whether it returned (otherwise it panicked) and the calls made
    inside it, in order.  timekeeper.rs:94-129; an error of the parser is
    returned like a value, so both count as returned. *)
Inductive call := Call (label : str) (nanos : N) (ended : bool) (inner : list call).

(** timekeeper.rs:8-12, the two statics; the hash map is a list with unique
    keys. *)
Record keeper := Keeper { k_on : bool; k_table : list (str * (nat * N)) }.

(** timekeeper.rs:8-12, at the start of the program. *)
Definition keeper0 : keeper := Keeper false [].
(** timekeeper.rs:18-32. *)
Definition enable (k : keeper) : keeper := Keeper true (k_table k).
Definition disable (k : keeper) : keeper := Keeper false (k_table k).
Definition toggle_enabled (k : keeper) : keeper := if k_on k then disable k else enable k.
(** timekeeper.rs:79-81. *)
Definition clear (k : keeper) : keeper := Keeper (k_on k) [].

(** timekeeper.rs:117-124, [entry(ctx).and_modify(...).or_insert((1, x))].
    The sums do not overflow. *)
Fixpoint record (ctx : str) (x : N) (t : list (str * (nat * N))) : list (str * (nat * N)) :=
  match t with
  | [] => [(ctx, (1, x))]
  | (c, (n, y)) :: t' => if str_eqb c ctx then (c, (n + 1, (y + x)%N)) :: t' else (c, (n, y)) :: record ctx x t'
  end.

(** timekeeper.rs:94-129 [context]: the parser runs first, then, if it
    returned and the timekeeper is on, the call is recorded. *)
Fixpoint run_call (k : keeper) (c : call) : keeper :=
  match c with
  | Call ctx x ended inner =>
      let k1 := fold_left (fun k c => run_call k c) inner k in
      if ended && k_on k1 then Keeper (k_on k1) (record ctx x (k_table k1)) else k1
  end.
Definition run_calls (k : keeper) (cs : list call) : keeper := fold_left run_call cs k.

Section Report.
(** [(nanos as f64 / cnt as f64) as u128] and the display of
    [x as f64 / 10_f64.powi(e)]. *)
Variable avg : N -> nat -> N.
Variable scaled : N -> nat -> str.

(** timekeeper.rs:47-57 [time_to_str]. *)
Definition time_to_str (x : N) : str :=
  if (10 ^ 9 <=? x)%N then scaled x 9 ++ bs "s"
  else if (10 ^ 6 <=? x)%N then scaled x 6 ++ bs "ms"
  else if (10 ^ 3 <=? x)%N then scaled x 3 ++ [xce; xbc] ++ bs "s"
  else dec x ++ bs "ns".

(** The key of timekeeper.rs:44. *)
Definition key (e : str * (nat * N)) : N := avg (snd (snd e)) (fst (snd e)).
Fixpoint ascending (l : list (str * (nat * N))) : Prop :=
  match l with
  | a :: (b :: _) as l' => (key a <= key b)%N /\ ascending l'
  | _ => True
  end.
(** timekeeper.rs:36-45: the entries in any order of the hash map, sorted by
    [sort_unstable_by_key] (entries with the same key in any order) and
    reversed. *)
Definition listed (t l : list (str * (nat * N))) : Prop :=
  exists m, Permutation t m /\ ascending m /\ l = rev m.

(** timekeeper.rs:61-69, one line. *)
Definition line_of (e : str * (nat * N)) : str :=
  let '(ctx, (cnt, nanos)) := e in
  bs "- " ++ ctx ++ bs ": (" ++ dec (N.of_nat cnt) ++ bs " calls, total " ++ time_to_str nanos ++
  bs ", average " ++ time_to_str (avg nanos cnt) ++ bs ")" ++ [b_nl].
(** timekeeper.rs:59-71, the text printed for the listed entries. *)
Definition report_text (l : list (str * (nat * N))) : str :=
  bs "====== TIMEKEEPER REPORT ======" ++ [b_nl; b_nl] ++ flat_map line_of l ++ [b_nl] ++
  bs "===============================" ++ [b_nl].
End Report.

(** What [run] of the command line program gets to: loading the configuration
    or the wikis fails after some calls of parsers, or the subcommand runs. *)
Inductive progress := LoadFails (cs : list call) | Runs (cs : list call).

(** vimwiki-cli/src/lib.rs:34-77 [run]: the keeper afterwards and the table
    that is printed, if one is.  The [?] of lines 46, 50, 55 and 60 returns
    before line 66. *)
Definition cli_run (flag : bool) (p : progress) (k : keeper) : keeper * option (list (str * (nat * N))) :=
  let k1 := if flag then enable k else k in
  match p with
  | LoadFails cs => (run_calls k1 cs, None)
  | Runs cs =>
      let k2 := run_calls k1 cs in
      if flag then (clear (disable k2), Some (k_table (disable k2))) else (k2, None)
  end.
