(** Model of /repo/vimwiki-core/src/lang/parsers/span.rs.

    [usize] and the [u16] depth are natural numbers: overflow of either is not
    modelled.  A slice [inner[start..end]] is [firstn]/[skipn]; the Rust slice
    panics when [start <= end <= inner.len()] fails, which [span_ok] states and
    the proofs show preserved by every parser. *)
From Verif Require Import Base.

(** span.rs:21-26 [Span]. *)
Record span := Span { sp_inner : str; sp_start : nat; sp_end : nat; sp_depth : nat }.

(** The condition under which [as_remaining] (span.rs:185-187) and
    [as_consumed] (span.rs:167-169) do not panic. *)
Definition span_ok (s : span) : Prop :=
  sp_start s <= sp_end s /\ sp_end s <= length (sp_inner s).

(** span.rs:445-450 [From<&[u8]>]. *)
Definition span_of (inner : str) : span := Span inner 0 (length inner) 0.

(** span.rs:47-55 [backtrack_start_by]. *)
Definition backtrack_start_by (n : nat) (s : span) : span :=
  Span (sp_inner s) (if sp_start s <? n then 0 else sp_start s - n)
       (sp_end s) (sp_depth s).

(** span.rs:62-71 [advance_start_by] (clamps to [end]). *)
Definition advance_start_by (n : nat) (s : span) : span :=
  let st := sp_start s + n in
  Span (sp_inner s) (if sp_end s <? st then sp_end s else st) (sp_end s) (sp_depth s).

(** span.rs:77-79 [advance_end_by]. *)
Definition advance_end_by (n : nat) (s : span) : span :=
  Span (sp_inner s) (sp_start s) (sp_start s + n) (sp_depth s).

(** span.rs:85-87 [at_end]. *)
Definition at_end (s : span) : span := advance_start_by (sp_end s - 1) s.

(** span.rs:214-220 [remaining_len]. *)
Definition remaining_len (s : span) : nat :=
  if sp_start s <=? sp_end s then sp_end s - sp_start s else 0.

(** span.rs:223-225 [is_empty]. *)
Definition sp_is_empty (s : span) : bool := remaining_len s =? 0.

(** span.rs:94-100 [with_length]. *)
Definition with_length (n : nat) (s : span) : span :=
  if n <? remaining_len s
  then Span (sp_inner s) (sp_start s) (sp_start s + n) (sp_depth s) else s.

(** span.rs:108-110 [with_depth]. *)
Definition with_depth (d : nat) (s : span) : span :=
  Span (sp_inner s) (sp_start s) (sp_end s) d.

(** span.rs:113-115 [with_deeper_depth]. *)
Definition with_deeper (s : span) : span := with_depth (sp_depth s + 1) s.

(** span.rs:119-126 [with_shallower_depth]. *)
Definition with_shallower (s : span) : span := with_depth (sp_depth s - 1) s.

(** span.rs:167-169 [as_consumed]. *)
Definition consumed (s : span) : str := firstn (sp_start s) (sp_inner s).

(** span.rs:185-187 [as_remaining] / 502-506 [as_bytes]. *)
Definition remaining (s : span) : str := slice (sp_start s) (sp_end s) (sp_inner s).

(** span.rs:129-138 [trim_start]: the loop counts leading ASCII whitespace of
    [inner[start..end]]. *)
Definition trim_start (s : span) : span :=
  advance_start_by (count_while is_ascii_ws (remaining s)) s.

(** span.rs:229-252 [is_only_whitespace]: the loop over [memchr2_iter],
    carrying [last_pos]. *)
Fixpoint only_ws_loop (last_pos : nat) (poss : list nat) : option nat :=
  match poss with
  | [] => Some last_pos
  | pos :: rest => if 1 <? pos - last_pos then None else only_ws_loop pos rest
  end.
Definition is_only_whitespace (s : span) : bool :=
  let len := remaining_len s in
  if len =? 0 then true
  else match only_ws_loop 0 (positions is_space (remaining s)) with
       | None => false
       | Some last_pos => last_pos =? len - 1
       end.

(** [take_while(|pos| pos < start).count()] over the positions of newlines. *)
Fixpoint take_while_lt (n : nat) (l : list nat) : list nat :=
  match l with
  | [] => []
  | x :: l' => if x <? n then x :: take_while_lt n l' else []
  end.

(** span.rs:275-282 [line]. *)
Definition line (s : span) : nat :=
  length (take_while_lt (sp_start s) (positions is_nl (sp_inner s))) + 1.

(** [memrchr]: last position satisfying [p]. *)
Definition find_last_pos {A} (p : A -> bool) (l : list A) : option nat :=
  option_map (fun i => length l - 1 - i) (find_pos p (rev l)).

(** [bytecount::num_chars]: number of bytes that are not UTF-8 continuation
    bytes (10xxxxxx).  bytecount is an external crate; this is its
    documented naive definition. *)
Definition is_cont (b : byte) : bool := (128 <=? byte_n b) && (byte_n b <? 192).
Definition num_chars (l : str) : nat := length (filter (fun b => negb (is_cont b)) l).

(** span.rs:293-308 [column]. *)
Definition column (s : span) : nat :=
  let sol := match find_last_pos is_nl (consumed s) with Some p => p + 1 | None => 0 end in
  num_chars (slice sol (sp_start s) (sp_inner s)) + 1.

(** span.rs:286-288, 312-314 [end_line], [end_column]. *)
Definition end_line (s : span) : nat := line (at_end s).
Definition end_column (s : span) : nat := column (at_end s).

(** span.rs:376-389 [SpanIterator::next]. *)
Definition iter_next (s : span) : option (byte * span) :=
  if (sp_start s <? sp_end s) && (sp_start s <? length (sp_inner s))
  then match nth_error (sp_inner s) (sp_start s) with
       | Some b => Some (b, Span (sp_inner s) (sp_start s + 1) (sp_end s) (sp_depth s))
       | None => None
       end
  else None.

(** span.rs:391-402 [SpanIterator::next_back]. *)
Definition iter_next_back (s : span) : option (byte * span) :=
  if (sp_start s <? sp_end s) && (sp_end s <? length (sp_inner s))
  then match nth_error (sp_inner s) (sp_end s) with
       | Some b => Some (b, Span (sp_inner s) (sp_start s) (sp_end s - 1) (sp_depth s))
       | None => None
       end
  else None.

(** span.rs:721-737 [Slice], 624-630 [take], [take_split]:
    (rest, taken). *)
Definition take_split (n : nat) (s : span) : span * span :=
  (advance_start_by n s, advance_end_by n s).

(** span.rs:721-725 [Slice<Range>]. *)
Definition slice_range (i j : nat) (s : span) : span :=
  advance_start_by i (advance_end_by j s).

(** Derived [PartialEq] (span.rs:20). *)
Definition span_eqb (a b : span) : bool :=
  (sp_start a =? sp_start b) && (sp_end a =? sp_end b) && (sp_depth a =? sp_depth b)
  && str_eqb (sp_inner a) (sp_inner b).

(** elements/utils/region.rs: [Region] with offset, length and depth.  The
    optional [position] of the "location" feature is not part of it. *)
Record region := Region { r_off : nat; r_len : nat; r_depth : nat }.

(** elements/utils/region.rs [From<Span> for Region]. *)
Definition region_of (s : span) : region :=
  Region (sp_start s) (remaining_len s) (sp_depth s).

(** elements/utils/mod.rs [Located]. *)
Record located (A : Type) := Loc { l_val : A; l_reg : region }.
Arguments Loc {A}. Arguments l_val {A}. Arguments l_reg {A}.
