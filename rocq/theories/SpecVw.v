(** What users rely on when documents are written back in vimwiki syntax,
    stated without the helpers of ModelVimwiki. *)
From Verif Require Import Base ModelSpan ModelAst SpecTree SpecElem.

(** * White space *)

(** The Unicode White_Space characters, in UTF-8. *)
Definition white_chars : list str :=
  [ [x09]; [x0a]; [x0b]; [x0c]; [x0d]; [x20]; [xc2; x85]; [xc2; xa0]; [xe1; x9a; x80];
    [xe2; x80; x80]; [xe2; x80; x81]; [xe2; x80; x82]; [xe2; x80; x83]; [xe2; x80; x84];
    [xe2; x80; x85]; [xe2; x80; x86]; [xe2; x80; x87]; [xe2; x80; x88]; [xe2; x80; x89];
    [xe2; x80; x8a]; [xe2; x80; xa8]; [xe2; x80; xa9]; [xe2; x80; xaf]; [xe2; x81; x9f];
    [xe3; x80; x80] ].
Definition white_char (w : str) : Prop := In w white_chars.

(** [thin a b]: [a] is [b] with some white space characters left out. *)
Inductive thin : str -> str -> Prop :=
| thin_nil : thin [] []
| thin_keep c a b : utf8_char c -> thin a b -> thin (c ++ a) (c ++ b)
| thin_drop w a b : white_char w -> thin a b -> thin a (w ++ b).

(** Nothing but white space. *)
Definition blank (s : str) : Prop := thin [] s.
Definition starts_white (s : str) : Prop := exists w r, white_char w /\ s = w ++ r.
Definition ends_white (s : str) : Prop := exists w r, white_char w /\ s = r ++ w.
(** [core] is [s] without the white space around it. *)
Definition trimmed (s core : str) : Prop :=
  exists w1 w2, s = w1 ++ core ++ w2 /\ blank w1 /\ blank w2 /\
    ~ starts_white core /\ ~ ends_white core.

(** * Sequences of formatter operations *)

Inductive op :=
| OpWrite (s : str)               (* write_str *)
| OpIndent                        (* write_indent *)
| OpTrimEnd                       (* trim_end *)
| OpIndented (l : list op)        (* and_indent *)
| OpSkip (l : list op)            (* skip_whitespace *)
| OpTrim (l : list op).           (* and_trim *)

(** Every text written is UTF-8. *)
Fixpoint op_valid (o : op) : Prop :=
  match o with
  | OpWrite s => valid_utf8 s
  | OpIndent | OpTrimEnd => True
  | OpIndented l | OpSkip l | OpTrim l =>
      (fix go l := match l with [] => True | x :: l' => op_valid x /\ go l' end) l
  end.

(** [says indent k o t]: [t] is the text that [o] writes at level [k] when
    nothing is trimmed; an indentation is written or not. *)
Fixpoint says (indent : str) (k : nat) (o : op) (t : str) : Prop :=
  let all (k : nat) :=
    fix go (l : list op) (t : str) : Prop :=
      match l with
      | [] => t = []
      | x :: l' => exists t1 t2, t = t1 ++ t2 /\ says indent k x t1 /\ go l' t2
      end in
  match o with
  | OpWrite s => t = s
  | OpIndent => t = [] \/ t = concat (repeat indent k)
  | OpTrimEnd => t = []
  | OpIndented l => all (k + 1) l t
  | OpSkip l | OpTrim l => all k l t
  end.

(** * Tables *)

(** A column without text: all its cells are alignment markers. *)
Definition bare_column (t : table) (c : nat) : Prop :=
  forall r x, at_ t r c x -> exists a, l_val x = CAlign a.
(** Such a column has a marker with a colon. *)
Definition colon_only (t : table) : Prop :=
  exists r c x a, at_ t r c x /\ l_val x = CAlign a /\ a <> AlNone /\ bare_column t c.

(** All cells above [(r, c)] in its column are stored. *)
Definition walked (t : table) (r c : nat) : Prop := forall k, k < r -> present t k c.
(** All positions up to [(r, c)], in reading order, are stored. *)
Definition reached (t : table) (r c : nat) : Prop :=
  forall r' c', c' < t_col_cnt t -> r' < r \/ r' = r /\ c' <= c -> present t r' c'.
(** A column in which no cell with text comes before a gap. *)
Definition blind_column (t : table) (c : nat) : Prop :=
  forall r x, at_ t r c x -> reached t r c -> exists a, l_val x = CAlign a.
(** The tables of a page, also inside list items. *)
Fixpoint tables_in (b : block) : list table :=
  match b with
  | BTable t => [t]
  | BList items => flat_map (fun i => item_tables (l_val i)) items
  | _ => []
  end
with item_tables (i : list_item) : list table :=
  match i with ListItem _ _ _ contents _ => flat_map (fun c => tables_in (l_val c)) contents end.
Definition page_tables (p : page) : list table := flat_map (fun b => tables_in (l_val b)) p.

(** A printed table: one line for each row. *)
Definition table_text (centered : bool) (g : list (list str)) : str :=
  flat_map (fun row =>
    (if centered then bs "    " else []) ++ bs "|" ++ flat_map (fun c => c ++ bs "|") row ++ [x0a]) g.
Definition spaces (s : str) : Prop := Forall (fun b => b = x20) s.
Definition surrounded (core s : str) : Prop := exists a b, s = a ++ core ++ b /\ spaces a /\ spaces b.
Definition marker (a : col_align) (s : str) : Prop :=
  exists n, s = match a with
                | AlNone => repeat x2d n
                | AlLeft => bs ":" ++ repeat x2d n
                | AlRight => repeat x2d n ++ bs ":"
                | AlCenter => bs ":" ++ repeat x2d n ++ bs ":"
                end.
