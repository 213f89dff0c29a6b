(** Proofs about cursor coordinates and the line utilities. *)
From Verif Require Import Base ModelAst ModelTable ModelLink ModelInline ModelBlock ModelSpan ModelComb
  SpecDoc SpecTree SpecSpan ProofBase ProofBytes.

Lemma remaining_len_eq s : span_ok s -> remaining_len s = length (remaining s).
Proof.
  intros [H1 H2]. unfold remaining_len, remaining. rewrite slice_length by lia.
  destruct (sp_start s <=? sp_end s) eqn:E; [lia|]. apply Nat.leb_gt in E. lia.
Qed.

Lemma remaining_len_sub s : span_ok s -> length (remaining s) = sp_end s - sp_start s.
Proof. intros [H1 H2]. unfold remaining. rewrite slice_length; lia. Qed.

Lemma advance_moved n s : span_ok s -> n <= length (remaining s) -> moved s n (advance_start_by n s).
Proof.
  intros H K. split; auto. rewrite remaining_len_sub in K by auto. destruct H.
  unfold advance_start_by. destruct (sp_end s <? sp_start s + n) eqn:E; auto.
  apply Nat.ltb_lt in E. lia.
Qed.

Lemma moved_ok s n s' : span_ok s -> moved s n s' -> span_ok s'.
Proof.
  intros H [K ->]. rewrite remaining_len_sub in K by auto. destruct H. split; simpl; lia.
Qed.

Lemma moved_remaining s n s' : span_ok s -> moved s n s' -> remaining s' = skipn n (remaining s).
Proof. intros H [K ->]. unfold remaining. simpl. now rewrite skipn_slice. Qed.

Lemma moved_trans s n s1 m s2 : span_ok s -> moved s n s1 -> moved s1 m s2 -> moved s (n + m) s2.
Proof.
  intros H A B. pose proof (moved_remaining _ _ _ H A) as E. destruct A as [A ->], B as [B ->].
  rewrite E, skipn_length in B. split; [lia|]. simpl. now rewrite Nat.add_assoc.
Qed.

Lemma ok_split_takes n s : span_ok s -> n <= length (remaining s) -> takes s n (ok_split n s).
Proof.
  intros H K. split; auto. destruct (advance_moved n s H K) as [_ E]. unfold ok_split. now rewrite E.
Qed.

Lemma takes_moved s n r : takes s n r -> exists s' o, r = Ok s' o /\ moved s n s' /\
  o = Span (sp_inner s) (sp_start s) (sp_start s + n) (sp_depth s).
Proof. intros [H ->]. eexists _, _. split; [reflexivity|]. split; [split; auto|auto]. Qed.

Lemma remaining_taken s n : span_ok s -> n <= length (remaining s) ->
  remaining (Span (sp_inner s) (sp_start s) (sp_start s + n) (sp_depth s)) = firstn n (remaining s).
Proof.
  intros H K. unfold remaining. simpl. rewrite remaining_len_sub in K by auto. destruct H.
  unfold slice. rewrite firstn_firstn. f_equal. lia.
Qed.

(** * Occurrences *)

Lemma found_occ pat l k : found pat l k <-> (occ pat l k /\ k <= length l).
Proof.
  unfold found, occ. rewrite starts_with_spec. split.
  - intros (a & b & -> & <-). rewrite !app_length. split; [|lia]. exists b.
    rewrite skipn_app, skipn_all, Nat.sub_diag. reflexivity.
  - intros [[r H] K]. exists (firstn k l), r. rewrite <- H, firstn_skipn. split; auto.
    rewrite firstn_length. lia.
Qed.

Lemma found_nth b l k : found [b] l k <-> nth_error l k = Some b.
Proof.
  rewrite found_occ. unfold occ. split.
  - intros [H K]. apply starts_with_spec in H as [r H].
    rewrite <- (Nat.add_0_r k), <- nth_error_skipn, H. reflexivity.
  - intro H. assert (k < length l) by (apply nth_error_Some; congruence). split; [|lia].
    apply nth_error_split in H as (a & c & -> & <-).
    rewrite skipn_app, skipn_all, Nat.sub_diag. simpl. now rewrite beqb_refl.
Qed.

Lemma found2_nth b c l k :
  found [b; c] l k <-> (nth_error l k = Some b /\ nth_error l (S k) = Some c).
Proof.
  split.
  - intros (x & y & -> & <-). split.
    + rewrite nth_error_app2 by lia. now rewrite Nat.sub_diag.
    + rewrite nth_error_app2 by lia. now replace (S (length x) - length x) with 1 by lia.
  - intros [H1 H2]. apply nth_error_split in H1 as (x & y & -> & <-).
    rewrite nth_error_app2 in H2 by lia. replace (S (length x) - length x) with 1 in H2 by lia.
    destruct y as [|d y]; [discriminate|]. simpl in H2. injection H2 as ->.
    exists x, y. auto.
Qed.

Lemma eol_found_at l k : eol_found l k <-> at_eol l k.
Proof. unfold eol_found, at_eol. now rewrite found_nth, found2_nth. Qed.

Definition tight (l : str) (n : nat) : Prop :=
  ~ (0 < n /\ nth_error l (n - 1) = Some b_cr /\ nth_error l n = Some b_nl).

Lemma line_stop_first pats l n :
  (forall pat, In pat pats -> pat <> []) ->
  line_stop pats l n -> tight l n -> first_stop pats l n.
Proof.
  intros Hp (H1 & H2 & H3 & H4) Ht. split; auto. split.
  - intros k Hk. split.
    + rewrite eol_found_at. intros [H|[Ha Hb]].
      * apply H2. eapply nth_error_In. rewrite nth_error_firstn; [exact H|lia].
      * destruct (Nat.eq_dec (S k) n) as [E|E].
        -- apply Ht. subst n. replace (S k - 1) with k by lia. repeat split; auto. lia.
        -- apply H2. eapply (nth_error_In _ (S k)). rewrite nth_error_firstn; [exact Hb|lia].
    + intros pat Hi Hf. apply found_occ in Hf as [Hf _]. now apply (H3 k pat).
  - destruct H4 as [H4|[H4|[pat [H4 H5]]]]; auto.
    + right. left. now apply eol_found_at.
    + right. right. exists pat. split; auto. apply found_occ. auto.
Qed.

Lemma first_stop_unique pats l n m : first_stop pats l n -> first_stop pats l m -> n = m.
Proof.
  assert (W : forall n m, first_stop pats l n -> first_stop pats l m -> ~ n < m).
  { clear. intros n m (A1 & A2 & A3) (B1 & B2 & B3) Hlt. destruct (B2 n Hlt) as [C1 C2].
    destruct A3 as [A3|[A3|[pat [A3 A4]]]]; [lia|auto|]. now apply (C2 pat). }
  intros A B. pose proof (W _ _ A B). pose proof (W _ _ B A). lia.
Qed.

Lemma eol_pos_tight l pos : nth_error l pos = Some b_nl -> tight l (eol_pos l pos).
Proof.
  intros H (K1 & K2 & K3). revert K1 K2 K3. unfold eol_pos.
  destruct (0 <? pos) eqn:E; simpl.
  - apply Nat.ltb_lt in E. assert (pos < length l) by (apply nth_error_Some; congruence).
    destruct (beqb (byte_at l (pos - 1)) b_cr) eqn:E2; intros K1 K2 K3.
    + apply beqb_eq in E2. rewrite byte_at_nth in K3 by lia. rewrite E2 in K3. discriminate.
    + apply beqb_neq in E2. apply nth_error_byte_at in K2. congruence.
  - apply Nat.ltb_ge in E. intros. lia.
Qed.

Lemma not_nl_tight l n : nth_error l n <> Some b_nl -> tight l n.
Proof. intros H (_ & _ & K). auto. Qed.

Lemma end_tight l : tight l (length l).
Proof.
  apply not_nl_tight. intro H. assert (length l < length l) by (apply nth_error_Some; congruence). lia.
Qed.

Lemma byte_at_not_nl l pos : beqb (byte_at l pos) b_nl = false -> nth_error l pos <> Some b_nl.
Proof. intros H K. apply nth_error_byte_at in K. apply beqb_neq in H. auto. Qed.

Lemma tlu_tight pat l poss : (forall k, In k poss -> k < length l) -> tight l (tlu_loop pat l poss).
Proof.
  induction poss as [|pos ps IH]; simpl; intro H; [apply end_tight|].
  destruct (beqb (byte_at l pos) b_nl) eqn:E.
  - apply eol_pos_tight. rewrite byte_at_nth by auto. apply beqb_eq in E. congruence.
  - destruct (length l <? pos + length pat); [apply end_tight|].
    destruct (str_eqb _ pat); [now apply not_nl_tight, byte_at_not_nl|]. auto.
Qed.

Lemma tlu2_tight p1 p2 l poss :
  (forall k, In k poss -> k < length l) -> tight l (tlu2_loop p1 p2 l poss).
Proof.
  induction poss as [|pos ps IH]; simpl; intro H; [apply end_tight|].
  destruct (beqb (byte_at l pos) b_nl) eqn:E.
  - apply eol_pos_tight. rewrite byte_at_nth by auto. apply beqb_eq in E. congruence.
  - destruct (at_pos p1 l pos || at_pos p2 l pos); [now apply not_nl_tight, byte_at_not_nl|]. auto.
Qed.

Lemma tlu3_tight p1 p2 p3 l lp poss :
  match lp with
  | Some n => tight l n /\ forall k, k < n -> nth_error l k <> Some b_nl
  | None => forall k, nth_error l k <> Some b_nl
  end -> tight l (tlu3_loop p1 p2 p3 l lp poss).
Proof.
  intro H. induction poss as [|pos ps IH]; simpl.
  - destruct lp; [apply H|apply end_tight].
  - destruct lp as [n|].
    + destruct (n <=? pos) eqn:E; [apply H|]. apply Nat.leb_gt in E.
      destruct (_ || _ || _); auto. apply not_nl_tight. apply H. lia.
    + destruct (_ || _ || _); auto. now apply not_nl_tight.
Qed.

Lemma nl_find l :
  match find_pos is_nl l with
  | Some n => nth_error l n = Some b_nl /\ forall k, k < n -> nth_error l k <> Some b_nl
  | None => forall k, nth_error l k <> Some b_nl
  end.
Proof.
  destruct (find_pos is_nl l) as [n|] eqn:E.
  - apply find_pos_some in E as [[x [E1 E2]] E3]. apply beqb_eq in E2. subst x. split; auto.
    intros k Hk Hc. rewrite Forall_forall in E3. specialize (E3 b_nl).
    enough (is_nl b_nl = false) by discriminate. apply E3.
    eapply nth_error_In. rewrite nth_error_firstn; [eassumption | lia].
  - apply find_pos_none in E. intros k Hc. rewrite Forall_forall in E.
    enough (is_nl b_nl = false) by discriminate. apply E.
    eapply nth_error_In. eassumption.
Qed.

Lemma tlu_first pat l : pat <> [] -> length pat <= 2 -> first_stop [pat] l (tlu_pos pat l).
Proof.
  intros H K. apply line_stop_first.
  - intros p [<-|[]]; auto.
  - now apply tlu_pos_spec.
  - apply tlu_tight. intro k. apply positions_lt.
Qed.

Lemma tlu2_first p1 p2 l : p1 <> [] -> p2 <> [] -> first_stop [p1; p2] l (tlu2_pos p1 p2 l).
Proof.
  intros H K. apply line_stop_first.
  - intros p [<-|[<-|[]]]; auto.
  - now apply tlu2_pos_spec.
  - apply tlu2_tight. intro k. apply positions_lt.
Qed.

Lemma tlu3_first p1 p2 p3 l :
  p1 <> [] -> p2 <> [] -> p3 <> [] -> first_stop [p1; p2; p3] l (tlu3_pos p1 p2 p3 l).
Proof.
  intros H K L. apply line_stop_first.
  - intros p [<-|[<-|[<-|[]]]]; auto.
  - now apply tlu3_pos_spec.
  - apply tlu3_tight. pose proof (nl_find l) as N. destruct (find_pos is_nl l) as [n|]; simpl; auto.
    destruct N as [N1 N2]. split; [now apply eol_pos_tight|].
    intros k Hk. apply N2. pose proof (eol_pos_at_eol _ _ N1). lia.
Qed.

Lemma eol_first l : first_stop [] l (eol_stop l).
Proof.
  apply line_stop_first; [contradiction|apply eol_stop_spec|].
  unfold eol_stop. pose proof (nl_find l) as N. destruct (find_pos is_nl l) as [n|].
  - now apply eol_pos_tight.
  - apply end_tight.
Qed.

Lemma take_until_eol_eq s :
  span_ok s -> takes s (eol_stop (remaining s)) (take_until_end_of_line_or_input s).
Proof.
  intro H. pose proof (eol_first (remaining s)) as [K _]. unfold take_until_end_of_line_or_input.
  unfold eol_stop in *. destruct (find_pos is_nl (remaining s)) as [n|] eqn:E.
  - now apply ok_split_takes.
  - unfold rest. rewrite remaining_len_eq by auto. split; auto.
    destruct (advance_moved _ s H K) as [_ ->]. f_equal. rewrite remaining_len_sub by auto.
    destruct H. destruct s as [i a b d]; simpl in *. f_equal. lia.
Qed.

Lemma verify_non_empty (p : parser span) s n :
  span_ok s -> takes s n (p s) ->
  (n = 0 /\ verify p non_empty s = Err) \/ (0 < n /\ takes s n (verify p non_empty s)).
Proof.
  intros H [K E]. unfold verify. rewrite E. simpl. unfold non_empty, sp_is_empty, remaining_len. simpl.
  destruct (sp_start s <=? sp_start s + n) eqn:E1; [|apply Nat.leb_gt in E1; lia].
  replace (sp_start s + n - sp_start s) with n by lia.
  destruct n; simpl; [left; auto|right]. split; [lia|]. split; auto.
Qed.

(** * Coordinates *)

Lemma take_while_lt_newlines n l i :
  length (take_while_lt n (positions_from is_nl i l)) = newlines (firstn (n - i) l).
Proof.
  revert i. induction l as [|x l IH]; intro i; simpl.
  - now rewrite firstn_nil.
  - destruct (n - i) as [|m] eqn:E; simpl.
    + assert (Hp : forall j l, n <= j -> take_while_lt n (positions_from is_nl j l) = []).
      { clear. intros j l; revert j. induction l as [|x l IH]; intros j Hj; simpl; auto.
        destruct (is_nl x); auto. simpl. destruct (j <? n) eqn:E; auto. apply Nat.ltb_lt in E. lia. }
      destruct (is_nl x); [|rewrite Hp; auto; lia]. simpl.
      destruct (i <? n) eqn:E2; auto. apply Nat.ltb_lt in E2. lia.
    + replace m with (n - S i) by lia. rewrite <- IH. destruct (is_nl x); simpl; auto.
      assert (i <? n = true) as -> by (apply Nat.ltb_lt; lia). reflexivity.
Qed.

Lemma line_spec s : line s = S (newlines (firstn (sp_start s) (sp_inner s))).
Proof.
  unfold line, positions. rewrite take_while_lt_newlines, Nat.sub_0_r. lia.
Qed.

Lemma find_last_pos_prefix pre l :
  no_nl l -> (pre = [] \/ exists p, pre = p ++ [b_nl]) ->
  match find_last_pos is_nl (pre ++ l) with Some p => p + 1 | None => 0 end = length pre.
Proof.
  intros H K. unfold find_last_pos. rewrite rev_app_distr.
  assert (Hn : forall r, find_pos is_nl (rev l ++ r) = option_map (fun i => length l + i) (find_pos is_nl r)).
  { intro r. rewrite <- rev_length.
    assert (Hr : ~ In b_nl (rev l)) by (now rewrite <- in_rev).
    clear -Hr. induction (rev l) as [|x m IH]; simpl.
    - now destruct (find_pos is_nl r).
    - destruct (is_nl x) eqn:E.
      + apply beqb_eq in E. subst. exfalso. apply Hr. now left.
      + rewrite IH by (intro; apply Hr; now right). now destruct (find_pos is_nl r). }
  rewrite Hn. destruct K as [->|[p ->]].
  - reflexivity.
  - rewrite rev_app_distr. simpl. rewrite !app_length. simpl. lia.
Qed.

Lemma num_chars_utf8 cs : Forall utf8_char cs -> num_chars (concat cs) = length cs.
Proof.
  unfold num_chars. induction 1 as [|c cs H _ IH]; simpl; auto.
  rewrite filter_app, app_length, IH.
  enough (length (filter (fun b => negb (is_cont b)) c) = 1) as -> by reflexivity.
  assert (C1 : forall b, tail_byte b -> is_cont b = true).
  { intros b [A B]. unfold is_cont. apply andb_true_iff. split; [apply Nat.leb_le|apply Nat.ltb_lt]; lia. }
  assert (C2 : forall b lo hi, in_range b lo hi -> 128 <= lo -> hi <= 191 -> is_cont b = true).
  { intros b lo hi [A B] ? ?. apply C1. split; lia. }
  assert (C3 : forall b lo hi, in_range b lo hi -> hi <= 127 \/ 192 <= lo -> is_cont b = false).
  { intros b lo hi [A B] ?. unfold is_cont. apply andb_false_iff.
    destruct (le_lt_dec 128 (byte_n b)); [right; apply Nat.ltb_ge|left; apply Nat.leb_gt]; lia. }
  destruct H as [a Ha|a b Ha Hb|a b c Ha Hb Hc|a b c Ha Hb Hc|a b c Ha Hb Hc|a b c Ha Hb Hc
                |a b c e Ha Hb Hc He|a b c e Ha Hb Hc He|a b c e Ha Hb Hc He]; simpl;
    rewrite ?(C3 a _ _ Ha) by lia; simpl;
    try rewrite (C2 b _ _ Hb) by lia; simpl; try rewrite (C1 c Hc); simpl; try rewrite (C1 e He); auto.
Qed.

Lemma column_spec s l cs :
  sp_start s <= length (sp_inner s) ->
  line_prefix (sp_inner s) (sp_start s) l -> Forall utf8_char cs -> l = concat cs ->
  column s = S (length cs).
Proof.
  intros Hle (pre & H1 & H2 & H3) Hcs ->. unfold column, consumed. rewrite H1.
  rewrite find_last_pos_prefix by auto.
  enough (slice (length pre) (sp_start s) (sp_inner s) = concat cs) as ->.
  { rewrite num_chars_utf8 by auto. lia. }
  unfold slice. rewrite <- skipn_firstn_comm. rewrite H1, skipn_app, skipn_all, Nat.sub_diag. reflexivity.
Qed.

Lemma line_prefix_exists inner i : exists l, line_prefix inner i l.
Proof.
  unfold line_prefix. generalize (firstn i inner) as t. intro t.
  induction t as [|b t IH] using rev_ind.
  - exists [], []. split; auto. split; [intros []|auto].
  - destruct (beqb b b_nl) eqn:E.
    + apply beqb_eq in E. subst b. exists [], (t ++ [b_nl]). rewrite app_nil_r. split; auto.
      split; [intros []|]. right. eauto.
    + apply beqb_neq in E. destruct IH as (l & pre & -> & H1 & H2). exists (l ++ [b]), pre.
      rewrite app_assoc. split; auto. split; auto. intro H. apply in_app_or in H as [H|[H|[]]]; auto.
Qed.

Lemma utf8_nl c : utf8_char c -> In b_nl c -> c = [b_nl].
Proof.
  assert (K : forall b lo hi, in_range b lo hi -> 11 <= lo -> b <> b_nl).
  { intros b lo hi [A B] H ->. change (byte_n b_nl) with 10 in A. lia. }
  intros H Hi.
  destruct H as [a Ha|a b Ha Hb|a b c Ha Hb Hc|a b c Ha Hb Hc|a b c Ha Hb Hc|a b c Ha Hb Hc
                |a b c e Ha Hb Hc He|a b c e Ha Hb Hc He|a b c e Ha Hb Hc He];
    simpl in Hi; unfold tail_byte in *;
    repeat match goal with
    | [ H : in_range ?x ?lo ?hi |- _ ] =>
        (let N := fresh in assert (N : x <> b_nl) by (apply (K x lo hi H); lia)); clear H
    end;
    repeat match goal with [ H : _ \/ _ |- _ ] => destruct H end; subst; try contradiction; auto.
Qed.

(** The tail of valid UTF-8 text from the last newline on is valid. *)
Lemma line_prefix_utf8 inner i l :
  line_prefix inner i l -> valid_utf8 (firstn i inner) -> valid_utf8 l.
Proof.
  intros (pre & H1 & H2 & H3) [cs [H4 H5]]. rewrite H5 in H1. clear H5.
  destruct H3 as [->|[p ->]]; [exists cs; auto|].
  revert p H1 H4. induction cs as [|c cs IH]; intros p H1 H4.
  - simpl in H1. destruct p; discriminate.
  - inversion H4 as [|? ? Hc Hcs]; subst. simpl in H1.
    assert (D : (exists p', p = c ++ p' /\ concat cs = (p' ++ [b_nl]) ++ l) \/ (c = p ++ [b_nl] /\ concat cs = l)
                \/ In b_nl (removelast c) \/ (exists q, c = (p ++ [b_nl]) ++ q /\ q <> [] /\ l = q ++ concat cs)).
    { apply app_eq_app in H1 as [q [[A B]|[A B]]].
      - destruct q as [|x q]; [right; left; rewrite app_nil_r in A; auto|].
        right. right. right. exists (x :: q). repeat split; auto. discriminate.
      - destruct q as [|x q] using rev_ind.
        + rewrite app_nil_r in A. right. left. auto.
        + rewrite app_assoc in A. apply app_inj_tail in A as [-> ->]. left. exists q. auto. }
    destruct D as [(p' & -> & E)|[[E1 E2]|[E|(q & E1 & E2 & E3)]]].
    + eapply IH; eauto.
    + exists cs. auto.
    + exfalso. assert (In b_nl c).
      { destruct c as [|x c] using rev_ind; [destruct E|]. rewrite removelast_last in E.
        apply in_or_app. now left. }
      rewrite (utf8_nl _ Hc H) in E. destruct E.
    + exfalso. assert (In b_nl c) by (rewrite E1; apply in_or_app; left; apply in_or_app; right; now left).
      rewrite (utf8_nl _ Hc H) in E1. destruct p as [|? [|? ?]]; try discriminate.
      injection E1 as E1. destruct q; [congruence|discriminate].
Qed.

Lemma coords_start s :
  sp_start s <= length (sp_inner s) -> valid_utf8 (firstn (sp_start s) (sp_inner s)) ->
  coords (sp_inner s) (sp_start s) (line s) (column s).
Proof.
  intros H K. split; [apply line_spec|].
  destruct (line_prefix_exists (sp_inner s) (sp_start s)) as [l Hl].
  destruct (line_prefix_utf8 _ _ _ Hl K) as [cs [H1 H2]].
  exists l, cs. repeat split; auto. eapply column_spec; eauto.
Qed.

Lemma line_prefix_unique inner i l l' : line_prefix inner i l -> line_prefix inner i l' -> l = l'.
Proof.
  intros (p & H1 & H2 & H3) (p' & H1' & H2' & H3').
  assert (E : length p = length p').
  { pose proof (find_last_pos_prefix p l H2 H3) as A.
    pose proof (find_last_pos_prefix p' l' H2' H3') as B.
    rewrite <- H1 in A. rewrite <- H1' in B. congruence. }
  rewrite H1 in H1'. apply app_eq_app in H1' as [q [[-> ->]|[-> ->]]];
    rewrite app_length in E; destruct q; simpl in *; auto; lia.
Qed.

Lemma coords_unique inner i ln col ln' col' :
  i <= length inner -> coords inner i ln col -> coords inner i ln' col' -> ln = ln' /\ col = col'.
Proof.
  intros H [-> (l & cs & A1 & A2 & A3 & ->)] [-> (l' & cs' & B1 & B2 & B3 & ->)]. split; auto.
  assert (l' = l) by (eapply line_prefix_unique; eauto). subst l'.
  rewrite <- (num_chars_utf8 cs A2), <- (num_chars_utf8 cs' B2). congruence.
Qed.

Lemma at_end_start s : span_ok s -> sp_start s < sp_end s ->
  at_end s = Span (sp_inner s) (if sp_start s =? 0 then sp_end s - 1 else sp_end s) (sp_end s) (sp_depth s).
Proof.
  intros [H1 H2] H. unfold at_end, advance_start_by. f_equal.
  destruct (sp_start s) as [|n] eqn:E; simpl.
  - destruct (sp_end s <? sp_end s - 1) eqn:F; auto. apply Nat.ltb_lt in F. lia.
  - destruct (sp_end s <? S (n + (sp_end s - 1))) eqn:F; auto. apply Nat.ltb_ge in F. lia.
Qed.

(** * Only whitespace *)

Lemma only_ws_gap i j l :
  S i < j -> only_ws_loop i (positions_from is_space j l) = Some i \/
             only_ws_loop i (positions_from is_space j l) = None.
Proof.
  revert j. induction l as [|x l IH]; intros j H; simpl; auto.
  destruct (is_space x); [|apply IH; lia]. simpl. right.
  assert (1 <? j - i = true) as -> by (apply Nat.ltb_lt; lia). reflexivity.
Qed.

Lemma only_ws_run i l :
  only_ws_loop i (positions_from is_space (S i) l) = Some (i + length l) <-> blanks l.
Proof.
  revert i. induction l as [|x l IH]; intro i; simpl.
  - rewrite Nat.add_0_r. split; constructor.
  - destruct (is_space x) eqn:E; simpl.
    + assert (1 <? (match i with 0 => 1 | S l => S i - i end) = false) as _ by (destruct i; auto; apply Nat.ltb_ge; lia).
      assert (1 <? S i - i = false) as F by (apply Nat.ltb_ge; lia).
      change (match i with 0 => S i | S l0 => i - l0 end) with (S i - i). rewrite F.
      replace (i + S (length l)) with (S i + length l) by lia. rewrite IH.
      split; intro H; [constructor; auto|now inversion H].
    + split; intro H.
      * destruct (only_ws_gap i (S (S i)) l) as [K|K]; [lia| |]; rewrite K in H; [|discriminate].
        injection H as H. lia.
      * inversion H; congruence.
Qed.

Lemma only_ws_spec s : span_ok s -> is_only_whitespace s = true <-> blanks (tl (remaining s)).
Proof.
  intro H. unfold is_only_whitespace. rewrite remaining_len_eq by auto.
  destruct (remaining s) as [|x l]; simpl.
  - split; constructor.
  - assert (E : only_ws_loop 0 (positions is_space (x :: l)) = only_ws_loop 0 (positions_from is_space 1 l)).
    { unfold positions. simpl. now destruct (is_space x). }
    rewrite E, Nat.sub_0_r. pose proof (only_ws_run 0 l) as R. simpl in R. rewrite <- R.
    destruct (only_ws_loop 0 (positions_from is_space 1 l)) as [n|].
    + rewrite Nat.eqb_eq. split; congruence.
    + split; discriminate.
Qed.

(** * Surrounding *)

Lemma surround_loop_spec R l s poss :
  span_ok s -> l = remaining s -> R <> [] -> asc poss ->
  (forall k, In k poss -> k < length l) ->
  (forall k, 0 < k -> found R l k -> In k poss) ->
  match surround_loop R l (find_pos is_nl l) poss s with
  | Ok s' o => exists k, 0 < k /\ found R l k /\ (forall j, 0 < j < k -> ~ found R l j) /\
      no_nl (firstn k l) /\ moved s (k + length R) s' /\
      o = Span (sp_inner s) (sp_start s) (sp_start s + k) (sp_depth s)
  | Err => forall k, 0 < k -> found R l k -> no_nl (firstn (S k) l) -> False
  | _ => False
  end.
Proof.
  intros Hs Hl HR. induction poss as [|pos ps IH]; intros Ha Hlt Hin.
  - simpl. intros k H1 H2. destruct (Hin k H1 H2).
  - cbn [surround_loop]. pose proof (nl_find l) as N.
    assert (Hp : pos < length l) by (apply Hlt; now left).
    assert (Hbefore : forall j, 0 < j < pos -> ~ found R l j).
    { intros j Hj Hf. pose proof (asc_in_le _ _ _ Ha (Hin j (proj1 Hj) Hf)). lia. }
    destruct (match find_pos is_nl l with Some n => n <=? pos | None => false end) eqn:E.
    { destruct (find_pos is_nl l) as [n|]; [|discriminate]. apply Nat.leb_le in E.
      intros k H1 H2 H3. pose proof (asc_in_le _ _ _ Ha (Hin k H1 H2)). destruct N as [N _].
      apply H3. eapply nth_error_In. rewrite nth_error_firstn; [exact N|lia]. }
    assert (Hnn : no_nl (firstn pos l)).
    { apply no_nl_nth. intros k Hk. destruct (find_pos is_nl l) as [n|]; [|apply N].
      apply Nat.leb_gt in E. apply N. lia. }
    assert (Hps : (~ (0 < pos /\ found R l pos)) ->
      match surround_loop R l (find_pos is_nl l) ps s with
      | Ok s' o => exists k, 0 < k /\ found R l k /\ (forall j, 0 < j < k -> ~ found R l j) /\
          no_nl (firstn k l) /\ moved s (k + length R) s' /\
          o = Span (sp_inner s) (sp_start s) (sp_start s + k) (sp_depth s)
      | Err => forall k, 0 < k -> found R l k -> no_nl (firstn (S k) l) -> False
      | _ => False
      end).
    { intro Hno. apply IH.
      - now inversion Ha.
      - intros k Hk. apply Hlt. now right.
      - intros k Hk Hf. destruct (Hin k Hk Hf) as [->|]; auto. exfalso. apply Hno. auto. }
    destruct (pos =? 0) eqn:E0.
    { apply Nat.eqb_eq in E0. apply Hps. lia. }
    apply Nat.eqb_neq in E0.
    assert (Hm : moved s pos (advance_start_by pos s)) by (apply advance_moved; auto; subst l; lia).
    pose proof (moved_ok _ _ _ Hs Hm) as Hs1. pose proof (moved_remaining _ _ _ Hs Hm) as Er.
    rewrite <- Hl in Er. rewrite remaining_len_eq by auto. rewrite Er, skipn_length.
    destruct (length l - pos <? length R) eqn:E1.
    { apply Nat.ltb_lt in E1. intros k H1 H2 _. pose proof (asc_in_le _ _ _ Ha (Hin k H1 H2)).
      destruct H2 as (a & b & H2 & H3). rewrite H2, !app_length in E1. lia. }
    apply Nat.ltb_ge in E1.
    assert (Ew : remaining (advance_end_by (length R) (advance_start_by pos s)) = firstn (length R) (skipn pos l)).
    { rewrite <- Er. apply (remaining_taken (advance_start_by pos s)); auto. rewrite Er, skipn_length. lia. }
    rewrite Ew. destruct (str_eqb (firstn (length R) (skipn pos l)) R) eqn:E2.
    + apply str_eqb_eq in E2. exists pos. split; [lia|].
      assert (Hf : found R l pos).
      { exists (firstn pos l), (skipn (length R) (skipn pos l)). split.
        - rewrite <- E2 at 1. rewrite firstn_skipn, firstn_skipn. reflexivity.
        - rewrite firstn_length. lia. }
      split; auto. split; auto. split; auto. split; [|reflexivity].
      eapply moved_trans; eauto. apply advance_moved; auto. rewrite Er, skipn_length. lia.
    + apply Hps. intros [_ (a & b & H1 & H2)]. apply str_eqb_neq in E2. apply E2.
      rewrite H1, <- H2, skipn_app, skipn_all, Nat.sub_diag. simpl.
      rewrite firstn_app, Nat.sub_diag, firstn_all. simpl. apply app_nil_r.
Qed.

Lemma tag_spec t s : span_ok s ->
  match tag t s with
  | Ok s' o => exists r, remaining s = t ++ r /\ moved s (length t) s' /\
      o = Span (sp_inner s) (sp_start s) (sp_start s + length t) (sp_depth s)
  | Err => forall r, remaining s <> t ++ r
  | _ => False
  end.
Proof.
  intro H. unfold tag. destruct (starts_with t (remaining s)) eqn:E.
  - apply starts_with_spec in E as [r E].
    assert (K : length t <= length (remaining s)) by (rewrite E, app_length; lia).
    destruct (takes_moved _ _ _ (ok_split_takes _ _ H K)) as (s' & o & -> & A & B). eauto.
  - intros r Hr. enough (starts_with t (remaining s) = true) by congruence.
    apply starts_with_spec. eauto.
Qed.

Lemma surround_spec L R s :
  span_ok s -> R <> [] -> no_nl R ->
  match surround_in_line1 L R s with
  | Ok s' o => exists c r, remaining s = L ++ c ++ R ++ r /\ c <> [] /\ no_nl c /\
      (forall k, 0 < k < length c -> ~ found R (c ++ R ++ r) k) /\
      moved s (length L + length c + length R) s' /\
      o = Span (sp_inner s) (sp_start s + length L) (sp_start s + length L + length c) (sp_depth s)
  | Err => forall c r, remaining s = L ++ c ++ R ++ r -> c <> [] -> no_nl c -> False
  | _ => False
  end.
Proof.
  intros Hs HR HN. unfold surround_in_line1. pose proof (tag_spec L s Hs) as T.
  destruct (tag L s) as [s1 o1| | |]; simpl; auto.
  - destruct T as (r1 & T1 & T2 & _). pose proof (moved_ok _ _ _ Hs T2) as Hs1.
    pose proof (moved_remaining _ _ _ Hs T2) as Er.
    rewrite T1, skipn_app, skipn_all, Nat.sub_diag in Er. simpl in Er.
    pose proof (surround_loop_spec R (remaining s1) s1 (positions (beqb (pat0 R)) (remaining s1))
      Hs1 eq_refl HR (positions_asc _ _)) as SL.
    assert (A1 : forall k, In k (positions (beqb (pat0 R)) (remaining s1)) -> k < length (remaining s1))
      by (intro; apply positions_lt).
    assert (A2 : forall k, 0 < k -> found R (remaining s1) k -> In k (positions (beqb (pat0 R)) (remaining s1))).
    { intros k _ Hf. apply found_occ in Hf as [Hf _]. apply positions_in. exists (pat0 R).
      split; [now apply occ_pat0|apply beqb_refl]. }
    specialize (SL A1 A2).
    destruct (surround_loop R (remaining s1) (find_pos is_nl (remaining s1))
      (positions (beqb (pat0 R)) (remaining s1)) s1) as [s2 o2| | |]; auto.
    + destruct SL as (k & K1 & (c & r & K2 & Kl) & K3 & K4 & K5 & K6). subst k.
      exists c, r. rewrite Er in K2. split; [congruence|].
      split; [destruct c; [simpl in K1; lia|discriminate]|].
      rewrite Er, K2, firstn_app, Nat.sub_diag, firstn_all, app_nil_r in K4.
      split; auto. rewrite Er, K2 in K3. split; auto.
      split; [eapply moved_trans in K5; [|exact Hs|exact T2]; now rewrite Nat.add_assoc in K5|].
      subst o2. destruct T2 as [_ ->]. reflexivity.
    + intros c r H1 H2 H3. rewrite T1 in H1. apply app_inv_head in H1. rewrite Er in SL.
      apply (SL (length c)).
      * destruct c; [congruence|simpl; lia].
      * exists c, r. auto.
      * rewrite H1. replace (S (length c)) with (length c + 1) by lia. rewrite firstn_app_2.
        destruct R as [|x R]; [congruence|]. simpl. intro Hi. apply in_app_or in Hi as [Hi|[Hi|[]]]; auto.
        apply HN. now left.
  - intros c r H. exfalso. eapply T; eauto.
Qed.

(** * Trimming *)

Lemma count_while_split {A} (p : A -> bool) l :
  exists a r, l = a ++ r /\ length a = count_while p l /\ Forall (fun b => p b = true) a /\
    (forall c t, r = c :: t -> p c = false).
Proof.
  induction l as [|x l IH]; simpl.
  - exists [], []. repeat split; auto. discriminate.
  - destruct (p x) eqn:E.
    + destruct IH as (a & r & -> & H1 & H2 & H3). exists (x :: a), r. simpl. repeat split; auto.
    + exists [], (x :: l). repeat split; auto. intros c t H. injection H as -> ->. auto.
Qed.

Lemma trim_start_spec s : span_ok s -> exists a t,
  remaining s = a ++ t /\ Forall (fun b => is_ascii_ws b = true) a /\
  (forall c r, t = c :: r -> is_ascii_ws c = false) /\ moved s (length a) (trim_start s).
Proof.
  intro H. destruct (count_while_split is_ascii_ws (remaining s)) as (a & r & H1 & H2 & H3 & H4).
  exists a, r. repeat split; auto.
  - rewrite H1, app_length. lia.
  - unfold trim_start. rewrite <- H2. apply advance_moved; auto. rewrite H1, app_length. lia.
Qed.

Lemma space0_spec s : span_ok s -> exists a r,
  remaining s = a ++ r /\ blanks a /\ (forall c t, r = c :: t -> is_space c = false) /\
  takes s (length a) (space0 s).
Proof.
  intro H. destruct (count_while_split is_space (remaining s)) as (a & r & H1 & H2 & H3 & H4).
  exists a, r. split; auto. split; auto. split; auto. unfold space0, take_while0. rewrite <- H2.
  apply ok_split_takes; auto. rewrite H1, app_length. lia.
Qed.

Lemma trim_trailing_spec s : span_ok s -> exists t b,
  remaining s = t ++ b /\ blanks b /\ (forall c r, t = r ++ [c] -> is_space c = false) /\
  trim_trailing_whitespace s =
    Ok (Span (sp_inner s) (sp_start s) (sp_start s + length t) (sp_depth s)) tt.
Proof.
  intro H. destruct (count_while_split is_space (rev (remaining s))) as (a & r & H1 & H2 & H3 & H4).
  exists (rev r), (rev a). rewrite <- rev_app_distr, <- H1, rev_involutive. split; auto.
  split; [unfold blanks; now apply Forall_rev|]. split.
  - intros c t E. apply (H4 c (rev t)). rewrite <- (rev_involutive r), E, rev_app_distr. reflexivity.
  - unfold trim_trailing_whitespace, rest_len, count_trailing_whitespace. simpl.
    rewrite remaining_len_eq by auto. unfold advance_end_by. do 2 f_equal.
    rewrite <- H2, <- (rev_length (remaining s)), H1, app_length, rev_length. lia.
Qed.

Lemma trim_spec s : span_ok s -> exists a t b,
  trimmed (remaining s) a t b /\
  trim_whitespace s =
    Ok (Span (sp_inner s) (sp_start s + length a) (sp_start s + length a + length t) (sp_depth s)) tt.
Proof.
  intro H. destruct (space0_spec s H) as (a & r & H1 & H2 & H3 & H4).
  destruct (takes_moved _ _ _ H4) as (s1 & o & E & M & _).
  pose proof (moved_ok _ _ _ H M) as Hs1. pose proof (moved_remaining _ _ _ H M) as Er.
  rewrite H1, skipn_app, skipn_all, Nat.sub_diag in Er. simpl in Er.
  destruct (trim_trailing_spec s1 Hs1) as (t & b & K1 & K2 & K3 & K4). rewrite Er in K1.
  assert (Hh : forall c t0, t = c :: t0 -> is_space c = false).
  { intros c t0 ->. apply (H3 c (t0 ++ b)). rewrite K1. reflexivity. }
  assert (Hb : t = [] -> b = []).
  { intros ->. destruct b as [|c b]; auto. simpl in K1. inversion K2; subst.
    rewrite (H3 c b) in H6; auto. discriminate. }
  exists a, t, b. split.
  - repeat split; auto. rewrite H1, K1. reflexivity.
  - unfold trim_whitespace. rewrite E. cbn [bind]. rewrite K4. cbn [bind]. destruct M as [_ ->]. reflexivity.
Qed.

Lemma trimmed_unique l a t b a' t' b' :
  trimmed l a t b -> trimmed l a' t' b' -> a = a' /\ t = t' /\ b = b'.
Proof.
  assert (Hblank : forall (a r a' r' : str), blanks a -> blanks a' ->
    (forall c x, r = c :: x -> is_space c = false) -> (forall c x, r' = c :: x -> is_space c = false) ->
    a ++ r = a' ++ r' -> a = a' /\ r = r').
  { clear. intros a r a' r' H1 H2 H3 H4. revert a' H2. induction H1 as [|x a Hx _ IH]; intros a' H2 E.
    - destruct H2 as [|y a' Hy _]; auto. simpl in E. specialize (H3 y (a' ++ r') E). congruence.
    - destruct H2 as [|y a' Hy H2].
      + simpl in E. specialize (H4 x (a ++ r) (eq_sym E)). congruence.
      + simpl in E. injection E as -> E. destruct (IH a' H2 E) as [-> ->]. auto. }
  intros (A1 & A2 & A3 & A4 & A5 & A6) (B1 & B2 & B3 & B4 & B5 & B6).
  assert (Hd : forall t b : str, (forall c r, t = c :: r -> is_space c = false) -> (t = [] -> b = []) ->
    forall c r, t ++ b = c :: r -> is_space c = false).
  { clear. intros t b H1 H2 c r E. destruct t as [|x t].
    - rewrite H2 in E by auto. discriminate.
    - simpl in E. injection E as -> E. eapply H1; eauto. }
  destruct (Hblank a (t ++ b) a' (t' ++ b')) as [-> E]; auto; try (eapply Hd; eauto); [congruence|].
  split; auto.
  assert (E' : rev b ++ rev t = rev b' ++ rev t') by (rewrite <- !rev_app_distr; congruence).
  destruct (Hblank (rev b) (rev t) (rev b') (rev t')) as [F1 F2]; auto.
  - now apply Forall_rev.
  - now apply Forall_rev.
  - intros c x F. apply (A5 c (rev x)). rewrite <- (rev_involutive t), F. reflexivity.
  - intros c x F. apply (B5 c (rev x)). rewrite <- (rev_involutive t'), F. reflexivity.
  - split; [rewrite <- (rev_involutive t), F2|rewrite <- (rev_involutive b), F1]; apply rev_involutive.
Qed.

(** * Lines *)

Lemma bol_spec s : span_ok s ->
  (beginning_of_line s = Ok s tt /\ bol (sp_inner s) (sp_start s)) \/
  (beginning_of_line s = Err /\ ~ bol (sp_inner s) (sp_start s)).
Proof.
  intros [H1 H2]. unfold beginning_of_line, consumed, bol.
  destruct (sp_start s) as [|n] eqn:E; [left; simpl; auto|].
  destruct (nth_error (sp_inner s) n) as [b|] eqn:E2; [|apply nth_error_None in E2; lia].
  assert (Ef : firstn (S n) (sp_inner s) = firstn n (sp_inner s) ++ [b]).
  { apply nth_error_split in E2 as (x & y & -> & <-).
    replace (S (length x)) with (length x + 1) by lia. rewrite firstn_app_2.
    rewrite (firstn_app (length x)), Nat.sub_diag, firstn_all. simpl. now rewrite app_nil_r. }
  rewrite Ef, rev_app_distr. simpl. rewrite Nat.sub_0_r, E2.
  destruct (is_nl b) eqn:E3.
  - left. apply beqb_eq in E3. subst. auto.
  - right. split; auto. apply beqb_neq in E3. intros [H|H]; [discriminate|congruence].
Qed.

(** The parser consumes a line terminator, or nothing at the end. *)
Lemma eoi_spec s : span_ok s ->
  match end_of_line_or_input s with
  | Ok s' _ => exists e r, remaining s = e ++ r /\ (e = [b_nl] \/ e = [b_cr; b_nl] \/ (e = [] /\ r = [])) /\
      moved s (length e) s'
  | Err => remaining s <> [] /\ ~ eol_found (remaining s) 0
  | _ => False
  end.
Proof.
  intro H. unfold end_of_line_or_input, sp_is_empty. rewrite remaining_len_eq by auto.
  destruct (length (remaining s) =? 0) eqn:E.
  - apply Nat.eqb_eq in E. destruct (remaining s) eqn:F; [|discriminate].
    exists [], []. repeat split; auto; simpl; try lia. destruct s; simpl. now rewrite Nat.add_0_r.
  - apply Nat.eqb_neq in E. unfold line_ending, palt.
    pose proof (tag_spec nl_str s H) as T1. destruct (tag nl_str s) as [s1 o| | |]; simpl; auto.
    + destruct T1 as (r & T1 & T2 & _). exists [b_nl], r. auto.
    + pose proof (tag_spec crlf_str s H) as T2. destruct (tag crlf_str s) as [s1 o| | |]; simpl; auto.
      * destruct T2 as (r & T3 & T4 & _). exists [b_cr; b_nl], r. auto.
      * split; [intro F; rewrite F in E; simpl in E; lia|].
        intros [(a & b & F & G)|(a & b & F & G)]; destruct a; try discriminate;
          [apply (T1 b)|apply (T2 b)]; exact F.
Qed.

Lemma first_stop_nil l n : first_stop [] l n -> no_nl (firstn n l) /\
  (n = length l \/ eol_found l n).
Proof.
  intros (H1 & H2 & H3). split.
  - apply no_nl_nth. intros k Hk Hc. destruct (H2 k Hk) as [H _]. apply H. left. now apply found_nth.
  - destruct H3 as [H3|[H3|[p [[] _]]]]; auto.
Qed.

Lemma found_skipn pat l n : found pat l n <-> (found pat (skipn n l) 0 /\ n <= length l).
Proof.
  rewrite !found_occ. unfold occ. simpl. split; [intros [H K]|intros [[H _] K]]; repeat split; auto; lia.
Qed.

Lemma rest_of_line_spec s : span_ok s -> exists c e r s' o,
  rest_of_line s = Ok s' o /\ next_line (remaining s) c e r /\ moved s (length c + length e) s' /\
  o = Span (sp_inner s) (sp_start s) (sp_start s + length c) (sp_depth s).
Proof.
  intro H. unfold rest_of_line.
  destruct (takes_moved _ _ _ (take_until_eol_eq s H)) as (s1 & o & -> & M & ->). simpl.
  pose proof (eol_first (remaining s)) as F. set (n := eol_stop (remaining s)) in *.
  pose proof (moved_ok _ _ _ H M) as Hs1. pose proof (moved_remaining _ _ _ H M) as Er.
  destruct (first_stop_nil _ _ F) as [F1 F2]. destruct F as (F3 & F4).
  pose proof (eoi_spec s1 Hs1) as E. destruct (end_of_line_or_input s1) as [s2 u| | |]; simpl; try contradiction.
  - destruct E as (e & r & E1 & E2 & E3).
    assert (Ln : length (firstn n (remaining s)) = n) by (rewrite firstn_length; lia).
    exists (firstn n (remaining s)), e, r, s2, (Span (sp_inner s) (sp_start s) (sp_start s + n) (sp_depth s)).
    rewrite Ln. split; auto. split; [|split; [eapply moved_trans; eauto|auto]].
    split; [rewrite <- E1, Er, firstn_skipn; auto|]. split; auto. split; auto. rewrite Ln. split; auto.
  - exfalso. destruct E as [E1 E2]. destruct F2 as [F2|F2].
    + apply E1. rewrite Er. apply skipn_all2. lia.
    + apply E2. rewrite Er. destruct F2 as [F2|F2]; [left|right]; now apply found_skipn in F2 as [F2 _].
Qed.

Lemma any_line_spec s : span_ok s ->
  (bol (sp_inner s) (sp_start s) /\ any_line s = rest_of_line s) \/
  (~ bol (sp_inner s) (sp_start s) /\ any_line s = Err).
Proof.
  intro H. unfold any_line. destruct (bol_spec s H) as [[-> B]|[-> B]]; [left|right]; split; auto.
  simpl. destruct (rest_of_line_spec s H) as (c & e & r & s' & o & -> & _). reflexivity.
Qed.

Lemma blank_not_eol c l : blanks c -> forall k, k < length c -> ~ eol_found (c ++ l) k.
Proof.
  intros H k Hk Hf. assert (exists b, nth_error (c ++ l) k = Some b /\ is_space b = false) as (b & H1 & H2).
  { apply eol_found_at in Hf as [Hf|[Hf _]]; eexists; (split; [exact Hf|reflexivity]). }
  rewrite nth_error_app1 in H1 by auto. apply nth_error_In in H1.
  unfold blanks in H. rewrite Forall_forall in H. rewrite (H _ H1) in H2. discriminate.
Qed.

Lemma blank_no_nl c : blanks c -> no_nl c.
Proof. intros H Hi. unfold blanks in H. rewrite Forall_forall in H. discriminate (H _ Hi). Qed.

Lemma eol_term_found c e r :
  e = [b_nl] \/ e = [b_cr; b_nl] \/ (e = [] /\ r = []) ->
  length c = length (c ++ e ++ r) \/ eol_found (c ++ e ++ r) (length c).
Proof.
  intros [->|[->|[-> ->]]].
  - right. left. exists c, r. auto.
  - right. right. exists c, r. auto.
  - left. simpl. now rewrite app_nil_r.
Qed.

Lemma blank_next_line c e r :
  blanks c -> (e = [b_nl] \/ e = [b_cr; b_nl] \/ (e = [] /\ r = [])) ->
  next_line (c ++ e ++ r) c e r.
Proof.
  intros H K. split; auto. split; [now apply blank_no_nl|]. split; auto. split; [rewrite app_length; lia|].
  split.
  - intros k Hk. split; [now apply blank_not_eol|]. intros pat [].
  - destruct (eol_term_found c e r K); auto.
Qed.

Lemma next_line_unique l c e r c' e' r' : next_line l c e r -> next_line l c' e' r' -> c = c' /\ e = e' /\ r = r'.
Proof.
  intros (A1 & _ & A2 & A3) (B1 & _ & B2 & B3). pose proof (first_stop_unique _ _ _ _ A2 B2) as L.
  rewrite A1 in B1. assert (c = c' /\ e ++ r = e' ++ r') as [-> E].
  { clear -L B1. revert c' L B1. induction c as [|x c IH]; intros [|y c'] L B1; simpl in *; try discriminate; auto.
    injection B1 as -> B1. destruct (IH c') as [-> ->]; auto. }
  split; auto. destruct A3 as [->|[->|[-> ->]]], B3 as [->|[->|[-> ->]]]; simpl in E;
    try discriminate; split; congruence.
Qed.

Lemma blank_line_spec s : span_ok s ->
  match blank_line s with
  | Ok s' o => bol (sp_inner s) (sp_start s) /\ exists c e r, blank_at s c e r /\
      moved s (length c + length e) s' /\
      o = Span (sp_inner s) (sp_start s) (sp_start s + length c) (sp_depth s)
  | Err => ~ (bol (sp_inner s) (sp_start s) /\ exists c e r, blank_at s c e r)
  | _ => False
  end.
Proof.
  intro H. unfold blank_line, preceded. destruct (bol_spec s H) as [[-> B]|[-> B]]; cbn [bind]; [|tauto].
  destruct (space0_spec s H) as (a & t & S1 & S2 & S3 & S4).
  destruct (takes_moved _ _ _ S4) as (s1 & o & E & M & Eo).
  pose proof (moved_ok _ _ _ H M) as Hs1. pose proof (moved_remaining _ _ _ H M) as Er.
  rewrite S1, skipn_app, skipn_all, Nat.sub_diag in Er. simpl in Er.
  assert (En : count_while is_space (remaining s) = length a).
  { rewrite S1. clear -S2 S3. induction S2 as [|x a Hx _ IH]; simpl.
    - destruct t as [|c t]; auto. simpl. now rewrite (S3 c t).
    - now rewrite Hx, IH. }
  assert (Hsp1 : space1 s = if length a =? 0 then Err else Ok s1 o).
  { unfold space1, take_while1. rewrite En. destruct (length a =? 0); auto.
    rewrite <- E. unfold space0, take_while0. now rewrite En. }
  assert (Hu : forall c e r, blank_at s c e r -> c = a /\ e ++ r = t).
  { intros c e r ((N1 & _ & _ & N2) & N3 & _). rewrite S1 in N1.
    assert (N4 : forall x y, e ++ r = x :: y -> is_space x = false).
    { intros x y F. destruct N2 as [->|[->|[-> ->]]]; simpl in F; [| |discriminate];
        injection F as <- _; reflexivity. }
    clear -N1 N3 N4 S2 S3. revert a S2 N1. induction N3 as [|x c Hx _ IH]; intros a S2 N1.
    - destruct S2 as [|y a Hy _]; auto. simpl in N1. rewrite (N4 y (a ++ t)) in Hy; [discriminate|auto].
    - destruct S2 as [|y a Hy S2].
      + simpl in N1. rewrite (S3 x (c ++ e ++ r)) in Hx; [discriminate|auto].
      + simpl in N1. injection N1 as -> N1. destruct (IH a S2 N1) as [-> ->]. auto. }
  unfold palt, terminated. rewrite Hsp1.
  pose proof (eoi_spec s1 Hs1) as Q. rewrite Er in Q.
  assert (Hno : (t <> [] /\ ~ eol_found t 0) -> ~ exists c e r, blank_at s c e r).
  { intros [Q1 Q2] (c & e & r & Hb). destruct (Hu _ _ _ Hb) as [-> Et].
    destruct Hb as ((_ & _ & _ & N2) & _). destruct N2 as [->|[->|[-> ->]]].
    - apply Q2. left. exists [], r. rewrite <- Et. auto.
    - apply Q2. right. exists [], r. rewrite <- Et. auto.
    - apply Q1. rewrite <- Et. reflexivity. }
  destruct (length a =? 0) eqn:Ea; cbn [bind].
  - (* no blanks: a terminator is required *)
    apply Nat.eqb_eq in Ea. destruct a; [|discriminate]. rewrite E. cbn [bind].
    assert (Hle : match line_ending s1 with
      | Ok s2 _ => exists e r, t = e ++ r /\ (e = [b_nl] \/ e = [b_cr; b_nl]) /\ moved s1 (length e) s2
      | Err => ~ eol_found t 0
      | _ => False end).
    { unfold line_ending, palt. pose proof (tag_spec nl_str s1 Hs1) as T1. rewrite Er in T1.
      destruct (tag nl_str s1) as [s2 o2| | |]; auto.
      + destruct T1 as (r & T1 & T2 & _). exists [b_nl], r. auto.
      + pose proof (tag_spec crlf_str s1 Hs1) as T2. rewrite Er in T2.
        destruct (tag crlf_str s1) as [s2 o2| | |]; auto.
        * destruct T2 as (r & T3 & T4 & _). exists [b_cr; b_nl], r. auto.
        * intros [(x & b & F & G)|(x & b & F & G)]; destruct x; try discriminate;
            [apply (T1 b)|apply (T2 b)]; exact F. }
    destruct (line_ending s1) as [s2 o2| | |]; simpl; auto.
    + destruct Hle as (e & r & E1 & E2 & E3). split; auto. exists [], e, r. split; [|split; [|auto]].
      * split; [|split; [constructor|]].
        -- rewrite S1, E1. apply (blank_next_line [] e r); [constructor|tauto].
        -- destruct E2 as [->| ->]; discriminate.
      * apply (moved_trans s 0 s1 (length e)); auto.
    + intros [_ (c & e & r & Hb)]. destruct (Hu _ _ _ Hb) as [-> Et].
      destruct Hb as ((_ & _ & _ & N2) & _ & N3). destruct N2 as [->|[->|[-> ->]]].
      * apply Hle. left. exists [], r. rewrite <- Et. auto.
      * apply Hle. right. exists [], r. rewrite <- Et. auto.
      * apply N3. reflexivity.
  - apply Nat.eqb_neq in Ea. destruct (end_of_line_or_input s1) as [s2 u| | |] eqn:EQ; cbn [bind]; try contradiction.
    + destruct Q as (e & r & E1 & E2 & E3). split; auto. exists a, e, r. split; [|split; [|auto]].
      * split; [|split; auto].
        -- rewrite S1, E1. now apply blank_next_line.
        -- destruct a; [simpl in Ea; lia|discriminate].
      * eapply moved_trans; eauto.
    + rewrite E. cbn [bind].
      assert (line_ending s1 = Err) as ->.
      { unfold end_of_line_or_input in EQ. destruct (sp_is_empty s1); [discriminate|].
        unfold line_ending, palt in *.
        pose proof (tag_spec nl_str s1 Hs1) as T1. destruct (tag nl_str s1); try contradiction; [discriminate|].
        pose proof (tag_spec crlf_str s1 Hs1) as T2. destruct (tag crlf_str s1); try contradiction; [discriminate|auto]. }
      simpl. intros [_ K]. now apply Hno.
Qed.

(** * Runs of a character and dividers *)

Lemma span_eqb_moved s s' : moved s 1 s' -> span_eqb s' s = false.
Proof.
  intros [H ->]. unfold span_eqb. simpl.
  assert (sp_start s + 1 =? sp_start s = false) as -> by (apply Nat.eqb_neq; lia). reflexivity.
Qed.

Lemma single_char_spec c s : span_ok s -> c <> b_nl -> c <> b_cr ->
  (exists r, remaining s = c :: r /\ exists s', single_char (pchar c) s = Ok s' c /\ moved s 1 s') \/
  ((forall r, remaining s <> c :: r) /\ single_char (pchar c) s = Err).
Proof.
  intros H H1 H2. unfold single_char, pnot. pose proof (eoi_spec s H) as E.
  destruct (remaining s) as [|b r] eqn:Er.
  - right. split; [discriminate|]. destruct (end_of_line_or_input s); try contradiction; auto.
    destruct E as [E _]. congruence.
  - destruct (beqb b c) eqn:Eb.
    + apply beqb_eq in Eb. subst b. left. exists r. split; auto.
      destruct (end_of_line_or_input s) as [s1 u| | |]; try contradiction.
      * exfalso. destruct E as (e & r' & E1 & [->|[->|[-> ->]]] & _); simpl in E1; try discriminate;
          injection E1 as E1 _; auto.
      * simpl. unfold pchar, anychar. rewrite Er, beqb_refl. simpl. exists (advance_start_by 1 s).
        split; auto. apply advance_moved; auto. rewrite Er. simpl. lia.
    + right. apply beqb_neq in Eb. split; [congruence|].
      destruct (end_of_line_or_input s) as [s1 u| | |]; try contradiction; auto.
      simpl. unfold pchar. rewrite Er. apply beqb_neq in Eb. rewrite Eb. reflexivity.
Qed.

Lemma many_char_spec c fuel s : span_ok s -> c <> b_nl -> c <> b_cr -> length (remaining s) < fuel ->
  exists n l s', many0_fuel fuel (single_char (pchar c)) s = Ok s' l /\ moved s n s' /\
    (exists r, remaining s = repeat c n ++ r /\ forall x, r <> c :: x).
Proof.
  intros H H1 H2. revert s H. induction fuel as [|fuel IH]; intros s H Hf; [lia|].
  cbn [many0_fuel].
  destruct (single_char_spec c s H H1 H2) as [(r & Er & s' & -> & M)|[Er ->]].
  - rewrite (span_eqb_moved _ _ M). pose proof (moved_remaining _ _ _ H M) as Er'.
    rewrite Er in Er'. simpl in Er'.
    destruct (IH s') as (n & l & s2 & -> & M2 & r2 & R1 & R2).
    + eapply moved_ok; eauto.
    + rewrite Er', Er in *. simpl in Hf. lia.
    + exists (S n), (c :: l), s2. simpl. split; auto. split; [apply (moved_trans s 1 s' n); auto|].
      exists r2. rewrite Er, <- Er', R1. auto.
  - exists 0, [], s. split; auto. split; [|exists (remaining s); auto]. split; [lia|].
    destruct s; simpl. now rewrite Nat.add_0_r.
Qed.

Lemma take_char_spec c s : span_ok s -> c <> b_nl -> c <> b_cr -> exists n,
  takes s n (take_line_while (pchar c) s) /\
  exists r, remaining s = repeat c n ++ r /\ forall x, r <> c :: x.
Proof.
  intros H H1 H2. unfold take_line_while, recognize, many0.
  destruct (many_char_spec c (S (remaining_len s)) s H H1 H2) as (n & l & s' & -> & M & R).
  { rewrite remaining_len_eq by auto. lia. }
  exists n. split; auto. simpl. destruct M as [M ->]. simpl.
  assert (sp_start s + n <? sp_start s = false) as -> by (apply Nat.ltb_ge; lia).
  split; auto. unfold advance_end_by. do 2 f_equal. lia.
Qed.

Lemma divider_spec s : span_ok s ->
  match p_divider s with
  | Ok s' d => bol (sp_inner s) (sp_start s) /\ exists n e r, 4 <= n /\
      next_line (remaining s) (repeat b_hyphen n) e r /\ moved s (n + length e) s' /\
      d = Loc tt (Region (sp_start s) (n + length e) (sp_depth s))
  | Err => ~ (bol (sp_inner s) (sp_start s) /\ exists n e r, 4 <= n /\
      next_line (remaining s) (repeat b_hyphen n) e r)
  | _ => False
  end.
Proof.
  intro H. unfold p_divider, located_p, locate, capture.
  destruct (bol_spec s H) as [[-> B]|[-> B]]; cbn [bind]; [|tauto].
  destruct (take_char_spec x2d s H) as (n & T & r & R1 & R2); [discriminate|discriminate|].
  destruct (verify_non_empty _ _ _ H T) as [[-> E]|[Hn E]];
    unfold verify at 1, take_line_while1; fold (verify (take_line_while (pchar x2d)) non_empty); rewrite ?E.
  - simpl. intros [_ (m & e & r' & Hm & N & _)]. destruct m; [lia|]. simpl in R1. apply (R2 (repeat b_hyphen m ++ e ++ r')).
    rewrite <- R1. exact N.
  - destruct (takes_moved _ _ _ E) as (s1 & o & -> & M & ->). cbn [bind].
    assert (Hnh : forall e r', e = [b_nl] \/ e = [b_cr; b_nl] \/ (e = [] /\ r' = []) ->
       forall x, e ++ r' <> b_hyphen :: x).
    { intros e r' [->|[->|[-> ->]]] x; simpl; discriminate. }
    assert (Hun : forall m e r', next_line (remaining s) (repeat b_hyphen m) e r' -> m = n /\ e ++ r' = r).
    { intros m e r' (N1 & _ & _ & N2). specialize (Hnh e r' N2). rewrite R1 in N1.
      clear -N1 R2 Hnh. change x2d with b_hyphen in *. revert m N1. induction n as [|n IH]; intros [|m] N1; simpl in N1; auto.
      - exfalso. eapply R2. exact N1.
      - exfalso. eapply Hnh. symmetry. exact N1.
      - injection N1 as N1. destruct (IH m N1). auto. }
    unfold remaining_len at 1. cbn [sp_start sp_end].
    assert (sp_start s <=? sp_start s + n = true) as -> by (apply Nat.leb_le; lia).
    replace (sp_start s + n - sp_start s) with n by lia.
    destruct (4 <=? n) eqn:E4; cbn [bind].
    + apply Nat.leb_le in E4. pose proof (moved_ok _ _ _ H M) as Hs1.
      pose proof (moved_remaining _ _ _ H M) as Er.
      rewrite R1 in Er. rewrite skipn_app, skipn_all2, repeat_length, Nat.sub_diag in Er
        by (rewrite repeat_length; lia). simpl in Er.
      pose proof (eoi_spec s1 Hs1) as Q. rewrite Er in Q.
      destruct (end_of_line_or_input s1) as [s2 u| | |]; cbn [bind]; try contradiction.
      * destruct Q as (e & r' & Q1 & Q2 & Q3). pose proof (moved_trans _ _ _ _ _ H M Q3) as M2.
        pose proof (remaining_len_sub s H) as Lr. destruct M2 as [M2 E2]. subst s2. cbn [sp_start bind fst snd].
        assert (sp_start s + (n + length e) <? sp_start s = false) as -> by (apply Nat.ltb_ge; lia).
        split; auto. exists n, e, r'. split; auto. split.
        { split; [rewrite R1, Q1; auto|]. split; [intro Hi; apply repeat_spec in Hi; discriminate|].
          split; auto. rewrite R1, Q1. split; [rewrite app_length, !repeat_length; lia|]. split.
          - intros k Hk. split; [|intros p []]. rewrite eol_found_at. rewrite repeat_length in Hk.
            assert (Hk2 : nth_error (repeat x2d n ++ e ++ r') k = Some x2d).
            { rewrite nth_error_app1 by (rewrite repeat_length; lia).
              rewrite (nth_error_nth' _ x00) by (rewrite repeat_length; lia). f_equal.
              apply (repeat_spec n). apply nth_In. rewrite repeat_length. lia. }
            intros [F|[F _]]; rewrite Hk2 in F; discriminate.
          - destruct (eol_term_found (repeat x2d n) e r' Q2); auto. }
        split; [split; auto|]. f_equal. unfold region_of, with_length.
        replace (sp_start s + (n + length e) - sp_start s) with (n + length e) by lia.
        rewrite remaining_len_eq by auto. destruct (n + length e <? length (remaining s)) eqn:F; simpl.
        -- f_equal. unfold remaining_len. simpl.
           assert (sp_start s <=? sp_start s + (n + length e) = true) as -> by (apply Nat.leb_le; lia). lia.
        -- apply Nat.ltb_ge in F. f_equal. rewrite remaining_len_eq by auto. lia.
      * destruct Q as [Q1 Q2]. intros [_ (m & e & r' & Hm & N)]. destruct (Hun _ _ _ N) as [-> Er'].
        destruct N as (_ & _ & _ & [->|[->|[-> ->]]]).
        -- apply Q2. left. exists [], r'. rewrite <- Er'. auto.
        -- apply Q2. right. exists [], r'. rewrite <- Er'. auto.
        -- apply Q1. rewrite <- Er'. reflexivity.
    + apply Nat.leb_gt in E4. intros [_ (m & e & r' & Hm & N)]. destruct (Hun _ _ _ N). lia.
Qed.
