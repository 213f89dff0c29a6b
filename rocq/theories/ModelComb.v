(** Parser results, the nom 6.1.2 combinators used by vimwiki-rs, and the
    parser utilities of /repo/vimwiki-core/src/lang/parsers/utils.

    nom is an external crate: its combinators are modelled from their
    documentation and source as known; this is part of the trusted base. *)
From Verif Require Import Base ModelSpan.

(** Result of a parser.  [Err] is [nom::Err::Error] (payload dropped; the
    code never produces [Failure], and [Incomplete] does not arise from the
    complete combinators).  [Panic] is a Rust panic (arithmetic underflow in
    a debug build, slice out of range or off a char boundary, [unwrap] on an
    error).  [OutOfFuel] only exists in the model and is proved unreachable. *)
Inductive res (A : Type) : Type :=
| Ok (s : span) (a : A)
| Err
| Panic
| OutOfFuel.
Arguments Ok {A}. Arguments Err {A}. Arguments Panic {A}. Arguments OutOfFuel {A}.

Definition parser (A : Type) := span -> res A.

(** The [?] operator. *)
Definition bind {A B} (r : res A) (f : span -> A -> res B) : res B :=
  match r with
  | Ok s a => f s a
  | Err => Err
  | Panic => Panic
  | OutOfFuel => OutOfFuel
  end.
Notation "'do' ( s , x ) <- r ;; k" := (bind r (fun s x => k))
  (at level 200, s name, x name, r at level 100, k at level 200).

(** * nom combinators *)

Definition ret {A} (a : A) : parser A := fun s => Ok s a.
Definition fail {A} : parser A := fun _ => Err.

(** nom [combinator::map]. *)
Definition pmap {A B} (p : parser A) (f : A -> B) : parser B :=
  fun s => do (s1, a) <- p s;; Ok s1 (f a).

(** nom [combinator::value]. *)
Definition value {A B} (b : B) (p : parser A) : parser B := pmap p (fun _ => b).

(** nom [combinator::opt]. *)
Definition opt {A} (p : parser A) : parser (option A) :=
  fun s => match p s with
           | Ok s1 a => Ok s1 (Some a)
           | Err => Ok s None
           | Panic => Panic
           | OutOfFuel => OutOfFuel
           end.

(** nom [combinator::peek]. *)
Definition peek {A} (p : parser A) : parser A :=
  fun s => do (_, a) <- p s;; Ok s a.

(** nom [combinator::not]. *)
Definition pnot {A} (p : parser A) : parser unit :=
  fun s => match p s with
           | Ok _ _ => Err
           | Err => Ok s tt
           | Panic => Panic
           | OutOfFuel => OutOfFuel
           end.

(** nom [combinator::verify]. *)
Definition verify {A} (p : parser A) (f : A -> bool) : parser A :=
  fun s => do (s1, a) <- p s;; if f a then Ok s1 a else Err.

(** nom [combinator::map_res] / [map_opt]. *)
Definition map_opt {A B} (p : parser A) (f : A -> option B) : parser B :=
  fun s => do (s1, a) <- p s;; match f a with Some b => Ok s1 b | None => Err end.

(** nom [combinator::map_parser]: the inner parser's leftover is dropped. *)
Definition map_parser {B} (p : parser span) (q : parser B) : parser B :=
  fun s => do (s1, o) <- p s;; do (_, b) <- q o;; Ok s1 b.

(** nom [branch::alt], one level. *)
Definition palt {A} (p q : parser A) : parser A :=
  fun s => match p s with
           | Err => q s
           | r => r
           end.
Fixpoint alt {A} (ps : list (parser A)) : parser A :=
  match ps with
  | [] => fail
  | p :: ps' => palt p (alt ps')
  end.

(** nom [sequence]. *)
Definition pair {A B} (p : parser A) (q : parser B) : parser (A * B) :=
  fun s => do (s1, a) <- p s;; do (s2, b) <- q s1;; Ok s2 (a, b).
Definition preceded {A B} (p : parser A) (q : parser B) : parser B :=
  fun s => do (s1, _) <- p s;; q s1.
Definition terminated {A B} (p : parser A) (q : parser B) : parser A :=
  fun s => do (s1, a) <- p s;; do (s2, _) <- q s1;; Ok s2 a.
Definition delimited {A B C} (p : parser A) (q : parser B) (r : parser C) : parser B :=
  preceded p (terminated q r).
Definition separated_pair {A B C} (p : parser A) (q : parser B) (r : parser C)
  : parser (A * C) :=
  fun s => do (s1, a) <- p s;; do (s2, _) <- q s1;; do (s3, c) <- r s2;; Ok s3 (a, c).

(** nom [combinator::recognize]; [offset] (span.rs:712-719) is a [usize]
    subtraction, which panics on underflow in a debug build. *)
Definition recognize {A} (p : parser A) : parser span :=
  fun s => do (s1, _) <- p s;;
    if sp_start s1 <? sp_start s then Panic
    else Ok s1 (advance_end_by (sp_start s1 - sp_start s) s).

(** nom [multi::many0]: stops at the first error; success without progress is
    an error.  The loop is bounded by fuel [S (remaining_len s)]. *)
Fixpoint many0_fuel {A} (fuel : nat) (p : parser A) (s : span) : res (list A) :=
  match fuel with
  | 0 => OutOfFuel
  | S f =>
      match p s with
      | Ok s1 a =>
          if span_eqb s1 s then Err
          else do (s2, l) <- many0_fuel f p s1;; Ok s2 (a :: l)
      | Err => Ok s []
      | Panic => Panic
      | OutOfFuel => OutOfFuel
      end
  end.
Definition many0 {A} (p : parser A) : parser (list A) :=
  fun s => many0_fuel (S (remaining_len s)) p s.

(** nom [multi::many1]: the first iteration has no progress check. *)
Definition many1 {A} (p : parser A) : parser (list A) :=
  fun s => do (s1, a) <- p s;; do (s2, l) <- many0 p s1;; Ok s2 (a :: l).

(** nom [multi::separated_list0/1]: loop after the first element. *)
Fixpoint sep_loop {A B} (fuel : nat) (sep : parser B) (p : parser A) (s : span)
  : res (list A) :=
  match fuel with
  | 0 => OutOfFuel
  | S f =>
      match sep s with
      | Ok s1 _ =>
          if span_eqb s1 s then Err
          else match p s1 with
               | Ok s2 a => do (s3, l) <- sep_loop f sep p s2;; Ok s3 (a :: l)
               | Err => Ok s []
               | Panic => Panic
               | OutOfFuel => OutOfFuel
               end
      | Err => Ok s []
      | Panic => Panic
      | OutOfFuel => OutOfFuel
      end
  end.
Definition separated_list1 {A B} (sep : parser B) (p : parser A) : parser (list A) :=
  fun s => do (s1, a) <- p s;;
    do (s2, l) <- sep_loop (S (remaining_len s1)) sep p s1;; Ok s2 (a :: l).
Definition separated_list0 {A B} (sep : parser B) (p : parser A) : parser (list A) :=
  fun s => match p s with
           | Ok s1 a =>
               do (s2, l) <- sep_loop (S (remaining_len s1)) sep p s1;; Ok s2 (a :: l)
           | Err => Ok s []
           | Panic => Panic
           | OutOfFuel => OutOfFuel
           end.

(** nom [combinator::all_consuming]. *)
Definition all_consuming {A} (p : parser A) : parser A :=
  fun s => do (s1, a) <- p s;; if remaining_len s1 =? 0 then Ok s1 a else Err.

(** * nom byte and character parsers, on [Span] *)

(** [Ok((rest, taken))] for [take_split]. *)
Definition ok_split (n : nat) (s : span) : res span :=
  Ok (advance_start_by n s) (advance_end_by n s).

(** nom [bytes::complete::tag]. *)
Definition tag (t : str) : parser span :=
  fun s => if starts_with t (remaining s) then ok_split (length t) s else Err.

(** nom [character::complete::char] for an ASCII char. *)
Definition pchar (c : byte) : parser byte :=
  fun s => match remaining s with
           | b :: _ => if beqb b c then Ok (advance_start_by 1 s) c else Err
           | [] => Err
           end.

(** nom [character::complete::one_of] for ASCII chars. *)
Definition one_of (cs : str) : parser byte :=
  fun s => match remaining s with
           | b :: _ => if existsb (beqb b) cs then Ok (advance_start_by 1 s) b else Err
           | [] => Err
           end.

(** nom [character::complete::anychar]; items of [Span] are bytes. *)
Definition anychar : parser byte :=
  fun s => match remaining s with
           | b :: _ => Ok (advance_start_by 1 s) b
           | [] => Err
           end.

(** nom [bytes::complete::take]. *)
Definition take (n : nat) : parser span :=
  fun s => if n <=? remaining_len s then ok_split n s else Err.

(** span.rs:639-663 [split_at_position_complete] for the negation of [p]. *)
Definition take_while0 (p : byte -> bool) : parser span :=
  fun s => ok_split (count_while p (remaining s)) s.

(** span.rs:680-699 [split_at_position1_complete]. *)
Definition take_while1 (p : byte -> bool) : parser span :=
  fun s => let n := count_while p (remaining s) in
           if n =? 0 then Err else ok_split n s.

(** nom [character::complete::space0], [space1], [digit1]. *)
Definition space0 : parser span := take_while0 is_space.
Definition space1 : parser span := take_while1 is_space.
Definition digit1 : parser span := take_while1 is_digit.

(** nom [combinator::rest], [rest_len]. *)
Definition rest : parser span := fun s => Ok (advance_start_by (remaining_len s) s) s.
Definition rest_len : parser nat := fun s => Ok s (remaining_len s).

Definition crlf_str : str := [b_cr; b_nl].
Definition nl_str : str := [b_nl].
(** nom [character::complete::crlf], [line_ending]. *)
Definition crlf : parser span := tag crlf_str.
Definition line_ending : parser span := palt (tag nl_str) (tag crlf_str).

(** nom [character::complete::not_line_ending]: fails on a lone carriage
    return. *)
Definition not_line_ending : parser span :=
  fun s => match find_pos (fun b => beqb b b_cr || beqb b b_nl) (remaining s) with
           | None => ok_split (remaining_len s) s
           | Some i =>
               let r := skipn i (remaining s) in
               if starts_with [b_cr] r && negb (starts_with crlf_str r) then Err
               else ok_split i s
           end.

(** * utils/character.rs *)

(** character.rs:25-36 [end_of_line_or_input]. *)
Definition end_of_line_or_input : parser unit :=
  fun s => if sp_is_empty s then Ok s tt
           else do (s1, _) <- line_ending s;; Ok s1 tt.

(** character.rs:8-21 [whole_word]. *)
Definition whole_word : parser span :=
  fun s =>
    let ok := match rev (consumed s) with [] => true | c :: _ => is_ascii_ws c end in
    if negb ok then Err else take_while1 (fun c => negb (is_ascii_ws c)) s.

(** * utils/bytes.rs *)

(** First candidate position [pos] (ascending) such that [pat] is at [pos];
    stops at the first candidate where [pat] would not fit
    (bytes.rs:30-39 and 366-378). *)
Fixpoint offset_loop (pat bytes : str) (poss : list nat) : option nat :=
  match poss with
  | [] => None
  | pos :: ps =>
      let e := pos + length pat in
      if length bytes <? e then None
      else if str_eqb (slice pos e bytes) pat then Some pos
      else offset_loop pat bytes ps
  end.

(** First byte of a (non-empty) pattern. *)
Definition pat0 (pat : str) : byte := match pat with b :: _ => b | [] => x00 end.

Definition offset_of (pat bytes : str) : option nat :=
  offset_loop pat bytes (positions (beqb (pat0 pat)) bytes).

(** bytes.rs:27-46 [offset]. *)
Definition offset (pat : str) : parser nat :=
  fun s => match offset_of pat (remaining s) with
           | Some p => Ok s p
           | None => Err
           end.

(** bytes.rs:14-23 [not_contains]. *)
Definition not_contains (pat : str) (p : parser span) : parser span :=
  fun s => do (s1, r) <- p s;; do (r1, _) <- pnot (offset pat) r;; Ok s1 r1.

(** bytes.rs:54-112 [surround_in_line1]: loop over the positions of the first
    byte of [right]. *)
Fixpoint surround_loop (right bytes : str) (nlpos : option nat) (poss : list nat)
         (s : span) : res span :=
  match poss with
  | [] => Err
  | pos :: ps =>
      if match nlpos with Some n => n <=? pos | None => false end then Err
      else if pos =? 0 then surround_loop right bytes nlpos ps s
      else
        let s1 := advance_start_by pos s in
        let content := advance_end_by pos s in
        if remaining_len s1 <? length right then Err
        else if str_eqb (remaining (advance_end_by (length right) s1)) right
             then Ok (advance_start_by (length right) s1) content
             else surround_loop right bytes nlpos ps s
  end.
Definition surround_in_line1 (left right : str) : parser span :=
  fun s => do (s1, _) <- tag left s;;
    let bytes := remaining s1 in
    surround_loop right bytes (find_pos is_nl bytes) (positions (beqb (pat0 right)) bytes) s1.

(** bytes.rs:116-145 [take_line_while], [take_line_while1]. *)
Definition single_char {A} (p : parser A) : parser byte :=
  fun s => do (s1, _) <- pnot end_of_line_or_input s;;
           do (_, _) <- p s1;; anychar s1.
Definition take_line_while {A} (p : parser A) : parser span :=
  recognize (many0 (single_char p)).
Definition non_empty (s : span) : bool := negb (sp_is_empty s).
Definition take_line_while1 {A} (p : parser A) : parser span :=
  verify (take_line_while p) non_empty.

Definition byte_at (l : str) (i : nat) : byte := nth i l x00.

(** End of line at [pos] (the position of a newline), stepping back over a
    preceding carriage return (bytes.rs:158-164, 214-220, 271-277, 344-347). *)
Definition eol_pos (bytes : str) (pos : nat) : nat :=
  if (0 <? pos) && beqb (byte_at bytes (pos - 1)) b_cr then pos - 1 else pos.

(** bytes.rs:150-184 [take_line_until]. *)
Fixpoint tlu_loop (pat bytes : str) (poss : list nat) : nat :=
  match poss with
  | [] => length bytes
  | pos :: ps =>
      if beqb (byte_at bytes pos) b_nl then eol_pos bytes pos
      else
        let e := pos + length pat in
        if length bytes <? e then length bytes
        else if str_eqb (slice pos e bytes) pat then pos
        else tlu_loop pat bytes ps
  end.
Definition tlu_pos (pat bytes : str) : nat :=
  tlu_loop pat bytes (positions (fun b => beqb b b_nl || beqb b (pat0 pat)) bytes).
Definition take_line_until (pat : str) : parser span :=
  fun s => ok_split (tlu_pos pat (remaining s)) s.
(** bytes.rs:189-196 [take_line_until1]. *)
Definition take_line_until1 (pat : str) : parser span :=
  verify (take_line_until pat) non_empty.

(** [bytes[pos..pos+|pat|] == pat], false when out of range. *)
Definition at_pos (pat bytes : str) (pos : nat) : bool :=
  (pos + length pat <=? length bytes) && str_eqb (slice pos (pos + length pat) bytes) pat.

(** bytes.rs:201-241 [take_line_until_one_of_two]. *)
Fixpoint tlu2_loop (p1 p2 bytes : str) (poss : list nat) : nat :=
  match poss with
  | [] => length bytes
  | pos :: ps =>
      if beqb (byte_at bytes pos) b_nl then eol_pos bytes pos
      else if at_pos p1 bytes pos || at_pos p2 bytes pos then pos
      else tlu2_loop p1 p2 bytes ps
  end.
Definition tlu2_pos (p1 p2 bytes : str) : nat :=
  tlu2_loop p1 p2 bytes
    (positions (fun b => beqb b b_nl || beqb b (pat0 p1) || beqb b (pat0 p2)) bytes).
Definition take_line_until_one_of_two (p1 p2 : str) : parser span :=
  fun s => ok_split (tlu2_pos p1 p2 (remaining s)) s.
(** bytes.rs:246-256. *)
Definition take_line_until_one_of_two1 (p1 p2 : str) : parser span :=
  verify (take_line_until_one_of_two p1 p2) non_empty.

(** bytes.rs:261-320 [take_line_until_one_of_three]. *)
Fixpoint tlu3_loop (p1 p2 p3 bytes : str) (line_pos : option nat) (poss : list nat) : nat :=
  match poss with
  | [] => match line_pos with Some n => n | None => length bytes end
  | pos :: ps =>
      match line_pos with
      | Some n =>
          if n <=? pos then n
          else if at_pos p1 bytes pos || at_pos p2 bytes pos || at_pos p3 bytes pos then pos
          else tlu3_loop p1 p2 p3 bytes line_pos ps
      | None =>
          if at_pos p1 bytes pos || at_pos p2 bytes pos || at_pos p3 bytes pos then pos
          else tlu3_loop p1 p2 p3 bytes line_pos ps
      end
  end.
Definition tlu3_pos (p1 p2 p3 bytes : str) : nat :=
  tlu3_loop p1 p2 p3 bytes (option_map (eol_pos bytes) (find_pos is_nl bytes))
    (positions (fun b => beqb b (pat0 p1) || beqb b (pat0 p2) || beqb b (pat0 p3)) bytes).
Definition take_line_until_one_of_three (p1 p2 p3 : str) : parser span :=
  fun s => ok_split (tlu3_pos p1 p2 p3 (remaining s)) s.
(** bytes.rs:325-337. *)
Definition take_line_until_one_of_three1 (p1 p2 p3 : str) : parser span :=
  verify (take_line_until_one_of_three p1 p2 p3) non_empty.

(** bytes.rs:340-357 [take_until_end_of_line_or_input]. *)
Definition take_until_end_of_line_or_input : parser span :=
  fun s => match find_pos is_nl (remaining s) with
           | Some pos => ok_split (eol_pos (remaining s) pos) s
           | None => rest s
           end.

(** bytes.rs:361-385 [take_until]. *)
Definition take_until (pat : str) : parser span :=
  fun s => match offset_of pat (remaining s) with
           | Some p => ok_split p s
           | None => Err
           end.

(** bytes.rs:388-406 [take_end]: (everything but the end, the end). *)
Definition take_end (n : nat) : parser span :=
  fun s => let len := remaining_len s in
           if len <? n then Err
           else Ok (advance_end_by (len - n) s) (advance_start_by (len - n) s).

(** bytes.rs:409-413 [count_remaining_bytes]. *)
Definition count_remaining_bytes : parser nat := fun s => Ok s (remaining_len s).

(** * utils/whitespace.rs *)

(** whitespace.rs:13-18 [single_multispace]. *)
Definition single_multispace : parser unit :=
  value tt (alt [crlf; tag nl_str; tag [b_tab]; tag [b_sp]]).

(** whitespace.rs:21-38 [count_trailing_whitespace]. *)
Definition count_trailing_whitespace : parser nat :=
  fun s => Ok s (count_while is_space (rev (remaining s))).

(** whitespace.rs:42-51 [trim_trailing_whitespace].  The subtraction
    [len - cnt] cannot underflow. *)
Definition trim_trailing_whitespace : parser unit :=
  fun s => do (s1, len) <- rest_len s;;
           do (s2, cnt) <- count_trailing_whitespace s1;;
           Ok (advance_end_by (len - cnt) s2) tt.

(** whitespace.rs:54-62 [trim_whitespace]. *)
Definition trim_whitespace : parser unit :=
  fun s => do (s1, _) <- space0 s;; do (s2, _) <- trim_trailing_whitespace s1;; Ok s2 tt.

(** * utils/line.rs *)

(** line.rs:11-28 [beginning_of_line]. *)
Definition beginning_of_line : parser unit :=
  fun s => match rev (consumed s) with
           | [] => Ok s tt
           | c :: _ => if is_nl c then Ok s tt else Err
           end.

(** line.rs:32-43 [blank_line]. *)
Definition blank_line : parser span :=
  preceded beginning_of_line
    (palt (terminated space1 end_of_line_or_input) (terminated space0 line_ending)).

(** line.rs:57-65 [rest_of_line]. *)
Definition rest_of_line : parser span :=
  fun s => do (s1, content) <- take_until_end_of_line_or_input s;;
           do (s2, _) <- end_of_line_or_input s1;; Ok s2 content.

(** line.rs:46-54 [any_line]. *)
Definition any_line : parser span :=
  fun s => do (s1, _) <- beginning_of_line s;;
           do (s2, content) <- rest_of_line s1;; Ok s2 content.

(** * utils/convert.rs *)

(** convert.rs:16-23 [deeper]. *)
Definition deeper {A} (p : parser A) : parser A :=
  fun s => do (s1, a) <- p (with_deeper s);; Ok (with_shallower s1) a.

(** convert.rs:43-54 [capture]; the subtraction panics on underflow. *)
Definition capture {A} (p : parser A) : parser (A * span) :=
  fun s => do (s1, a) <- p s;;
    if sp_start s1 <? sp_start s then Panic
    else Ok s1 (a, with_length (sp_start s1 - sp_start s) s).

(** convert.rs:29-40 [locate]. *)
Definition locate {A} (p : parser (A * span)) : parser (located A) :=
  fun s => do (s1, c) <- p s;; Ok s1 (Loc (fst c) (region_of (snd c))).

Definition located_p {A} (p : parser A) : parser (located A) := locate (capture p).

(** convert.rs:58-60 [cow_str]. *)
Definition cow_str : parser str := fun s => Ok s (remaining s).

(** [Located::map] (elements/utils/mod.rs). *)
Definition lmap {A B} (f : A -> B) (l : located A) : located B := Loc (f (l_val l)) (l_reg l).
