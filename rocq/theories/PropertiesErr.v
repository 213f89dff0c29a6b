(** Errors of the parsers (C102). *)
From Verif Require Import Base ModelSpan ModelElem ModelErr SpecTree SpecSpan SpecErr ProofErr.

(** * C102 *)

(** The text of an error has two lines for the error and for each one behind
    it, from the outside in: the context with the 1-based line and column of
    the place, and the rest of that line, at most a hundred characters. *)
Theorem C102_text e : Forall (fun x => sound (snd x)) (trail e) -> exists ts, Forall2 says (trail e) ts /\ display e = concat ts.
Proof. exact (display_says e). Qed.
Print Assumptions C102_text.
Theorem C102_lines e : (forall c s, In (c, s) (trail e) -> ~ In b_nl c) -> newlines (display e) = 2 * length (trail e).
Proof. exact (display_lines e). Qed.
Print Assumptions C102_lines.
(** A text of two lines, the second with a character of two bytes, read up to
    places in both lines. *)
Definition source : str := bs "ab" ++ [b_cr; b_nl] ++ [xc3; xa9] ++ bs "cd".
Definition at_line1 : span := Span source 1 8 0.
Definition at_line2 : span := Span source 6 8 0.
Definition an_error : perror := add_context at_line1 (bs "List") (from_ctx at_line2 (bs "Tag")).
Example C102_text_case : Forall (fun x => sound (snd x)) (trail an_error) /\ length (trail an_error) = 2 /\
  display an_error = bs "List: Line 1, Column 2" ++ [b_nl] ++ bs "b" ++ [b_nl] ++ bs "Tag: Line 2, Column 2" ++ [b_nl] ++ bs "cd" ++ [b_nl].
Proof.
  assert (A : forall a, byte_n a <= 127 -> utf8_char [a]) by (intros a H; apply U1; split; lia).
  assert (B : utf8_char [xc3; xa9]) by (apply U2; split; vm_compute; lia).
  split; [|split; vm_compute; reflexivity].
  repeat apply Forall_cons; [| |apply Forall_nil].
  - split; [vm_compute; lia|]. split.
    + exists [[x61]]. split; [repeat constructor; apply A; vm_compute; lia|reflexivity].
    + exists [[x62]; [b_cr]; [b_nl]; [xc3; xa9]; [x63]; [x64]]. split; [|reflexivity].
      repeat (apply Forall_cons; [first [exact B|apply A; vm_compute; lia]|]). apply Forall_nil.
  - split; [vm_compute; lia|]. split.
    + exists [[x61]; [x62]; [b_cr]; [b_nl]; [xc3; xa9]]. split; [|reflexivity].
      repeat (apply Forall_cons; [first [exact B|apply A; vm_compute; lia]|]). apply Forall_nil.
    + exists [[x63]; [x64]]. split; [repeat constructor; apply A; vm_compute; lia|reflexivity].
Qed.
Example C102_lines_case : (forall c s, In (c, s) (trail an_error) -> ~ In b_nl c) /\ newlines (display an_error) = 4.
Proof.
  split; [|vm_compute; reflexivity]. intros c s [H|[H|[]]]; injection H as <- _; vm_compute; intuition discriminate.
Qed.
(** A longer line is cut off. *)
Example C102_long_case : display (from_ctx (Span (repeat x61 150) 0 150 0) (bs "Tag")) =
  bs "Tag: Line 1, Column 1" ++ [b_nl] ++ repeat x61 100 ++ [b_nl].
Proof. vm_compute. reflexivity. Qed.

(** How far an error got: the last place it or one behind it names. *)
Definition reach (e : perror) : nat := fold_right Nat.max 0 (map (fun x => sp_start (snd x)) (trail e)).
(** The claim for alternatives: the error shown for them is one that got as
    far as any other.  It is false: alternatives are compared by the places of
    their outermost errors, and a context puts that at its beginning. *)
Theorem C102_furthest_refuted : exists s e es m d,
  alt_error s e es = add_context s (bs "Alternative") m /\ In d (e :: es) /\ reach m < reach d.
Proof.
  exists at_line1, an_error, [add_context at_line1 (bs "Table") (from_ctx at_line1 (bs "Char"))].
  eexists. exists an_error. split; [reflexivity|]. split; [now left|vm_compute; lia].
Qed.
Print Assumptions C102_furthest_refuted.
(** The error shown is one of those of the alternatives; of those whose
    outermost error names the last place it is the last one.  If no error names
    a later place behind its outermost, none of them got further. *)
Theorem C102_furthest_partial s e es : exists m x y, alt_error s e es = add_context s (bs "Alternative") m /\ e :: es = x ++ m :: y /\
  (forall d, In d x -> sp_start (pe_input d) <= sp_start (pe_input m)) /\ (forall d, In d y -> sp_start (pe_input d) < sp_start (pe_input m)) /\
  ((forall d, In d (e :: es) -> reach d = sp_start (pe_input d)) -> forall d, In d (e :: es) -> reach d <= reach m).
Proof.
  destruct (or_last es e) as (x & y & S & X & Y). exists (fold_left err_or es e), x, y. rewrite Forall_forall in X, Y.
  split; [reflexivity|]. split; [exact S|]. split; [exact X|]. split; [exact Y|]. intros R d I. rewrite (R d I).
  assert (M : In (fold_left err_or es e) (e :: es)) by (rewrite S; apply in_or_app; right; now left). rewrite (R _ M).
  rewrite S in I. apply in_app_iff in I as [I|[<-|I]]; [now apply X|lia|]. specialize (Y d I). cbn in Y. lia.
Qed.
Print Assumptions C102_furthest_partial.
Example C102_furthest_case : alt_error at_line1 (from_ctx at_line2 (bs "a")) [from_ctx at_line2 (bs "b"); from_ctx at_line1 (bs "c")] =
    add_context at_line1 (bs "Alternative") (from_ctx at_line2 (bs "b")) /\
  (forall d, In d [from_ctx at_line2 (bs "a"); from_ctx at_line2 (bs "b"); from_ctx at_line1 (bs "c")] -> reach d = sp_start (pe_input d)).
Proof. split; [reflexivity|]. intros d [<-|[<-|[<-|[]]]]; reflexivity. Qed.
(** So of alternatives that begin at the same place and each have a context,
    the last one is shown, however far the others got. *)
Theorem C102_last s e es : (forall d, In d (e :: es) -> sp_start (pe_input d) = sp_start s) ->
  alt_error s e es = add_context s (bs "Alternative") (last es e).
Proof.
  intro H. unfold alt_error. f_equal. assert (G : forall d, In d es -> sp_start (pe_input d) = sp_start s) by (intros; apply H; now right).
  induction es as [|d es _] using rev_ind; [reflexivity|]. rewrite fold_left_app, last_last. cbn [fold_left].
  assert (F : sp_start (pe_input (fold_left err_or es e)) = sp_start s).
  { destruct (or_last es e) as (x & y & S & _). apply H. rewrite app_comm_cons. apply in_or_app. left. rewrite S. apply in_or_app. right. now left. }
  set (m := fold_left err_or es e) in *. unfold err_or. rewrite F, (G d) by (apply in_or_app; right; now left). now rewrite Nat.ltb_irrefl.
Qed.
Print Assumptions C102_last.
Example C102_last_case : (forall d, In d [an_error; from_ctx at_line1 (bs "Table")] -> sp_start (pe_input d) = sp_start at_line1) /\
  alt_error at_line1 an_error [from_ctx at_line1 (bs "Table")] = add_context at_line1 (bs "Alternative") (from_ctx at_line1 (bs "Table")).
Proof. split; [intros d [<-|[<-|[]]]; reflexivity|reflexivity]. Qed.
