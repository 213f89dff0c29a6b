(** Cursor coordinates (C10, C11), the whitespace test (C12), the line
    utilities (C13 to C16) and the divider (C18). *)
From Verif Require Import Base ModelAst ModelTable ModelLink ModelInline ModelBlock ModelSpan ModelComb
  SpecDoc SpecTree SpecSpan ProofBase ProofBytes ProofSpan.

(** A cursor for the examples: [t] from [i] to [j]. *)
Definition cur (t : str) (i j : nat) : span := Span t i j 0.

(** * C10 *)

(** [line] counts the newlines before the cursor; [column] the characters
    between the last of them and the cursor. *)
Theorem C10_line_column : forall s,
  sp_start s <= length (sp_inner s) -> valid_utf8 (firstn (sp_start s) (sp_inner s)) ->
  coords (sp_inner s) (sp_start s) (line s) (column s).
Proof. exact coords_start. Qed.
Print Assumptions C10_line_column.

(** A position has only one pair of coordinates. *)
Theorem C10_unique : forall inner i ln col ln' col',
  i <= length inner -> coords inner i ln col -> coords inner i ln' col' -> ln = ln' /\ col = col'.
Proof. exact coords_unique. Qed.
Print Assumptions C10_unique.

(** Two lines; the cursor is after the two-byte character of the second. *)
Example C10_case : exists s, sp_start s <= length (sp_inner s) /\
  valid_utf8 (firstn (sp_start s) (sp_inner s)) /\ line s = 2 /\ column s = 3.
Proof.
  exists (cur [x61; x0a; x62; xc3; xa9; x63] 5 6). split; [simpl; lia|]. split; [|split; reflexivity].
  exists [[x61]; [x0a]; [x62]; [xc3; xa9]]. split; [|reflexivity].
  repeat constructor; unfold tail_byte, in_range; vm_compute; lia.
Qed.

(** * C11 *)

(** [end_line] and [end_column] are the coordinates of the last byte of the
    span only when the span starts at the beginning of the input; otherwise
    they are the coordinates of the byte after it.  Missing for the full
    property: the second case, which [C11_refuted] shows to be wrong. *)
Theorem C11_end_partial : forall s,
  span_ok s -> sp_start s < sp_end s ->
  let i := if sp_start s =? 0 then sp_end s - 1 else sp_end s in
  valid_utf8 (firstn i (sp_inner s)) -> coords (sp_inner s) i (end_line s) (end_column s).
Proof.
  intros s H K. pose proof (at_end_start s H K) as E. intros i Hv.
  unfold end_line, end_column. rewrite E. fold i.
  apply (coords_start (Span (sp_inner s) i (sp_end s) (sp_depth s))); [|exact Hv].
  destruct H. subst i. simpl. destruct (sp_start s =? 0); lia.
Qed.
Print Assumptions C11_end_partial.

Example C11_case : exists s, span_ok s /\ sp_start s < sp_end s /\ end_line s = 1 /\ end_column s = 3.
Proof. exists (cur (bs "abc") 0 3). split; [split; simpl; lia|]. split; [simpl; lia|]. split; reflexivity. Qed.

(** The span of the "b" in "ab\nc" is said to end at column 3. *)
Theorem C11_refuted : exists s, span_ok s /\ sp_start s < sp_end s /\
  ~ coords (sp_inner s) (sp_end s - 1) (end_line s) (end_column s).
Proof.
  exists (cur [x61; x62; x0a; x63] 1 2). split; [split; simpl; lia|]. split; [simpl; lia|].
  intro H. assert (K : coords [x61; x62; x0a; x63] 1 1 2).
  { split; [reflexivity|]. exists [x61], [[x61]]. split; [|split; [|split; reflexivity]].
    - exists []. split; [reflexivity|]. split; [intros [E|[]]; discriminate|auto].
    - repeat constructor; vm_compute; lia. }
  assert (L : 1 <= length [x61; x62; x0a; x63]) by (simpl; lia).
  destruct (coords_unique _ _ _ _ _ _ L H K) as [_ E]. discriminate.
Qed.
Print Assumptions C11_refuted.

(** * C12 *)

(** What [is_only_whitespace] computes: everything after the first byte is a
    space or a tab.  Missing for the full property: the first byte is not
    looked at. *)
Theorem C12_only_whitespace_partial : forall s, span_ok s ->
  is_only_whitespace s = true <-> blanks (tl (remaining s)).
Proof. exact only_ws_spec. Qed.
Print Assumptions C12_only_whitespace_partial.

(** In particular it never rejects whitespace. *)
Theorem C12_accepts_partial : forall s, span_ok s -> blanks (remaining s) -> is_only_whitespace s = true.
Proof.
  intros s H K. apply only_ws_spec; auto. destruct (remaining s); [exact K|now inversion K].
Qed.
Print Assumptions C12_accepts_partial.

Example C12_case : exists s, span_ok s /\ blanks (remaining s) /\ 1 < length (remaining s).
Proof. exists (cur (bs "a  b") 1 3). repeat split; simpl; auto; try lia. repeat constructor. Qed.

(** A single letter, and a letter followed by a space, count as whitespace. *)
Theorem C12_refuted : exists s, span_ok s /\ is_only_whitespace s = true /\ ~ blanks (remaining s).
Proof.
  exists (cur (bs "a ") 0 2). split; [split; simpl; lia|]. split; [reflexivity|].
  intro H. inversion H. discriminate.
Qed.
Print Assumptions C12_refuted.

(** * C13 *)

(** [take_line_until] takes everything before the first line terminator or
    occurrence of the pattern.  Missing for the full property: patterns of
    three bytes or more ([C13_refuted]). *)
Theorem C13_take_line_until_partial : forall pat s,
  span_ok s -> pat <> [] -> length pat <= 2 ->
  exists n, first_stop [pat] (remaining s) n /\ takes s n (take_line_until pat s) /\
    (n = 0 /\ take_line_until1 pat s = Err \/ 0 < n /\ takes s n (take_line_until1 pat s)).
Proof.
  intros pat s H K L. pose proof (tlu_first pat (remaining s) K L) as F.
  assert (T : takes s (tlu_pos pat (remaining s)) (take_line_until pat s)) by (apply ok_split_takes; auto; apply F).
  exists (tlu_pos pat (remaining s)). split; [exact F|]. split; [exact T|].
  exact (verify_non_empty (take_line_until pat) s _ H T).
Qed.
Print Assumptions C13_take_line_until_partial.

Theorem C13_take_line_until_one_of_two : forall p1 p2 s,
  span_ok s -> p1 <> [] -> p2 <> [] ->
  exists n, first_stop [p1; p2] (remaining s) n /\ takes s n (take_line_until_one_of_two p1 p2 s) /\
    (n = 0 /\ take_line_until_one_of_two1 p1 p2 s = Err \/
     0 < n /\ takes s n (take_line_until_one_of_two1 p1 p2 s)).
Proof.
  intros p1 p2 s H K L. pose proof (tlu2_first p1 p2 (remaining s) K L) as F.
  assert (T : takes s (tlu2_pos p1 p2 (remaining s)) (take_line_until_one_of_two p1 p2 s))
    by (apply ok_split_takes; auto; apply F).
  exists (tlu2_pos p1 p2 (remaining s)). split; [exact F|]. split; [exact T|].
  exact (verify_non_empty (take_line_until_one_of_two p1 p2) s _ H T).
Qed.
Print Assumptions C13_take_line_until_one_of_two.

Theorem C13_take_line_until_one_of_three : forall p1 p2 p3 s,
  span_ok s -> p1 <> [] -> p2 <> [] -> p3 <> [] ->
  exists n, first_stop [p1; p2; p3] (remaining s) n /\ takes s n (take_line_until_one_of_three p1 p2 p3 s) /\
    (n = 0 /\ take_line_until_one_of_three1 p1 p2 p3 s = Err \/
     0 < n /\ takes s n (take_line_until_one_of_three1 p1 p2 p3 s)).
Proof.
  intros p1 p2 p3 s H K L M. pose proof (tlu3_first p1 p2 p3 (remaining s) K L M) as F.
  assert (T : takes s (tlu3_pos p1 p2 p3 (remaining s)) (take_line_until_one_of_three p1 p2 p3 s))
    by (apply ok_split_takes; auto; apply F).
  exists (tlu3_pos p1 p2 p3 (remaining s)). split; [exact F|]. split; [exact T|].
  exact (verify_non_empty (take_line_until_one_of_three p1 p2 p3) s _ H T).
Qed.
Print Assumptions C13_take_line_until_one_of_three.

Theorem C13_take_until_end_of_line : forall s, span_ok s ->
  exists n, first_stop [] (remaining s) n /\ takes s n (take_until_end_of_line_or_input s).
Proof.
  intros s H. exact (ex_intro _ _ (conj (eol_first (remaining s)) (take_until_eol_eq s H))).
Qed.
Print Assumptions C13_take_until_end_of_line.

(** The stopping position is determined. *)
Theorem C13_unique : forall pats l n m, first_stop pats l n -> first_stop pats l m -> n = m.
Proof. exact first_stop_unique. Qed.
Print Assumptions C13_unique.

(** [take_until] takes everything before the first occurrence, and fails
    when there is none. *)
Theorem C13_take_until : forall pat s, span_ok s -> pat <> [] ->
  (exists n, found pat (remaining s) n /\ (forall k, k < n -> ~ found pat (remaining s) k) /\
     takes s n (take_until pat s)) \/
  ((forall k, ~ found pat (remaining s) k) /\ take_until pat s = Err).
Proof.
  intros pat s H K. unfold take_until. pose proof (offset_of_spec pat (remaining s) K) as S.
  destruct (offset_of pat (remaining s)) as [k|].
  - left. exists k. destruct S as [S1 S2].
    assert (L : k <= length (remaining s)) by (apply occ_iff in S1 as [_ L]; specialize (L K); lia).
    split; [apply found_occ; auto|]. split; [|now apply ok_split_takes].
    intros j Hj Hf. apply found_occ in Hf as [Hf _]. exact (S2 j Hj Hf).
  - right. split; auto. intros k Hf. apply found_occ in Hf as [Hf _]. exact (S k Hf).
Qed.
Print Assumptions C13_take_until.

(** "ab=\r\n" with the pattern "::": five bytes remain, three are taken. *)
Example C13_case : exists pat s, span_ok s /\ pat <> [] /\ length pat <= 2 /\
  first_stop [pat] (remaining s) 3 /\ takes s 3 (take_line_until pat s).
Proof.
  exists (bs "::"), (cur (bs "ab=" ++ [b_cr; b_nl] ++ bs "::") 0 7).
  assert (H : span_ok (cur (bs "ab=" ++ [b_cr; b_nl] ++ bs "::") 0 7)) by (split; simpl; lia).
  split; [exact H|]. split; [discriminate|]. split; [simpl; lia|].
  split; [|apply ok_split_takes; [exact H|vm_compute; lia]].
  change 3 with (tlu_pos (bs "::") (remaining (cur (bs "ab=" ++ [b_cr; b_nl] ++ bs "::") 0 7))).
  apply tlu_first; [discriminate|simpl; lia].
Qed.

(** Near the end of the input a pattern of three bytes makes it run over a
    line terminator. *)
Theorem C13_refuted : exists pat s n, span_ok s /\ pat <> [] /\
  takes s n (take_line_until pat s) /\ ~ first_stop [pat] (remaining s) n.
Proof.
  exists (bs "+%%"), (cur (bs "+" ++ [b_nl]) 0 2), 2.
  split; [split; simpl; lia|]. split; [discriminate|].
  split; [split; [vm_compute; lia|vm_compute; reflexivity]|].
  intros (_ & H & _). destruct (H 1) as [H1 _]; [lia|]. apply H1. left. exists (bs "+"), []. auto.
Qed.
Print Assumptions C13_refuted.

(** * C14 *)

(** [surround_in_line1 L R] succeeds exactly when the text begins with [L], a
    non-empty [c] without newline, and [R]; it takes the shortest such [c]. *)
Theorem C14_surround : forall L R s,
  span_ok s -> R <> [] -> no_nl R ->
  match surround_in_line1 L R s with
  | Ok s' o => exists c r, remaining s = L ++ c ++ R ++ r /\ c <> [] /\ no_nl c /\
      (forall k, 0 < k < length c -> ~ found R (c ++ R ++ r) k) /\
      moved s (length L + length c + length R) s' /\
      o = Span (sp_inner s) (sp_start s + length L) (sp_start s + length L + length c) (sp_depth s)
  | Err => forall c r, remaining s = L ++ c ++ R ++ r -> c <> [] -> no_nl c -> False
  | _ => False
  end.
Proof. exact surround_spec. Qed.
Print Assumptions C14_surround.

Example C14_case : exists s s' o, span_ok s /\ surround_in_line1 (bs "[[") (bs "]]") s = Ok s' o /\
  remaining o = bs "]a" /\ remaining s' = bs " b]]".
Proof.
  exists (cur (bs "x[[]a]] b]]") 1 11). eexists _, _. split; [split; simpl; lia|].
  split; [vm_compute; reflexivity|]. split; vm_compute; reflexivity.
Qed.

(** * C15 *)

(** [trim_whitespace] removes exactly the spaces and tabs at both ends. *)
Theorem C15_trim_whitespace : forall s, span_ok s -> exists a t b,
  trimmed (remaining s) a t b /\
  trim_whitespace s =
    Ok (Span (sp_inner s) (sp_start s + length a) (sp_start s + length a + length t) (sp_depth s)) tt.
Proof. exact trim_spec. Qed.
Print Assumptions C15_trim_whitespace.

Theorem C15_trimmed_unique : forall l a t b a' t' b',
  trimmed l a t b -> trimmed l a' t' b' -> a = a' /\ t = t' /\ b = b'.
Proof. exact trimmed_unique. Qed.
Print Assumptions C15_trimmed_unique.

Theorem C15_trim_trailing : forall s, span_ok s -> exists t b,
  remaining s = t ++ b /\ blanks b /\ (forall c r, t = r ++ [c] -> is_space c = false) /\
  trim_trailing_whitespace s =
    Ok (Span (sp_inner s) (sp_start s) (sp_start s + length t) (sp_depth s)) tt.
Proof. exact trim_trailing_spec. Qed.
Print Assumptions C15_trim_trailing.

(** [trim_start] removes exactly the leading ASCII whitespace. *)
Theorem C15_trim_start : forall s, span_ok s -> exists a t,
  remaining s = a ++ t /\ Forall (fun b => is_ascii_ws b = true) a /\
  (forall c r, t = c :: r -> is_ascii_ws c = false) /\ moved s (length a) (trim_start s).
Proof. exact trim_start_spec. Qed.
Print Assumptions C15_trim_start.

Example C15_case : exists s s', span_ok s /\ trim_whitespace s = Ok s' tt /\
  remaining s = bs "  a b " /\ remaining s' = bs "a b".
Proof.
  exists (cur (bs "|  a b |") 1 7). eexists. split; [split; simpl; lia|].
  split; [vm_compute; reflexivity|]. split; vm_compute; reflexivity.
Qed.

(** * C16 *)

(** [beginning_of_line] succeeds exactly at the start of the input and after
    a newline, and moves nothing. *)
Theorem C16_beginning_of_line : forall s, span_ok s ->
  (beginning_of_line s = Ok s tt /\ bol (sp_inner s) (sp_start s)) \/
  (beginning_of_line s = Err /\ ~ bol (sp_inner s) (sp_start s)).
Proof. exact bol_spec. Qed.
Print Assumptions C16_beginning_of_line.

(** A blank line is recognised exactly where there is one, and consumed with
    its terminator. *)
Theorem C16_blank_line : forall s, span_ok s ->
  match blank_line s with
  | Ok s' o => bol (sp_inner s) (sp_start s) /\ exists c e r, blank_at s c e r /\
      moved s (length c + length e) s' /\
      o = Span (sp_inner s) (sp_start s) (sp_start s + length c) (sp_depth s)
  | Err => ~ (bol (sp_inner s) (sp_start s) /\ exists c e r, blank_at s c e r)
  | _ => False
  end.
Proof. exact blank_line_spec. Qed.
Print Assumptions C16_blank_line.

(** The rest of the line is the text before its terminator, which is
    consumed. *)
Theorem C16_rest_of_line : forall s, span_ok s -> exists c e r s' o,
  rest_of_line s = Ok s' o /\ next_line (remaining s) c e r /\ moved s (length c + length e) s' /\
  o = Span (sp_inner s) (sp_start s) (sp_start s + length c) (sp_depth s).
Proof. exact rest_of_line_spec. Qed.
Print Assumptions C16_rest_of_line.

Theorem C16_any_line : forall s, span_ok s ->
  (bol (sp_inner s) (sp_start s) /\ any_line s = rest_of_line s) \/
  (~ bol (sp_inner s) (sp_start s) /\ any_line s = Err).
Proof. exact any_line_spec. Qed.
Print Assumptions C16_any_line.

(** A text has one next line. *)
Theorem C16_next_line_unique : forall l c e r c' e' r',
  next_line l c e r -> next_line l c' e' r' -> c = c' /\ e = e' /\ r = r'.
Proof. exact next_line_unique. Qed.
Print Assumptions C16_next_line_unique.

Example C16_case : exists s s' o, span_ok s /\ blank_line s = Ok s' o /\
  remaining o = bs "  " /\ remaining s' = bs "b".
Proof.
  exists (cur (bs "a" ++ [b_nl] ++ bs "  " ++ [b_cr; b_nl] ++ bs "b") 2 7). eexists _, _.
  split; [split; simpl; lia|]. split; [vm_compute; reflexivity|]. split; vm_compute; reflexivity.
Qed.

(** * C18 *)

(** A divider is recognised exactly at the beginning of a line of at least
    four hyphens; its region is that line with its terminator. *)
Theorem C18_divider : forall s, span_ok s ->
  match p_divider s with
  | Ok s' d => bol (sp_inner s) (sp_start s) /\ exists n e r, divider_at s n e r /\
      moved s (n + length e) s' /\ d = Loc tt (Region (sp_start s) (n + length e) (sp_depth s))
  | Err => ~ (bol (sp_inner s) (sp_start s) /\ exists n e r, divider_at s n e r)
  | _ => False
  end.
Proof.
  intros s H. unfold divider_at. pose proof (divider_spec s H) as D. destruct (p_divider s); auto.
  destruct D as [B (n & e & r & D1 & D2 & D3 & D4)]. split; [exact B|]. exists n, e, r. auto.
Qed.
Print Assumptions C18_divider.

Example C18_divider_case : exists s s' d, span_ok s /\ p_divider s = Ok s' d /\
  l_reg d = Region 2 7 0 /\ remaining s' = bs "b".
Proof.
  exists (cur (bs "a" ++ [b_nl] ++ bs "-----" ++ [b_cr; b_nl] ++ bs "b") 2 10). eexists _, _.
  split; [split; simpl; lia|]. split; [vm_compute; reflexivity|]. split; vm_compute; reflexivity.
Qed.
