(** Specifications of the byte utilities of utils/bytes.rs, on byte strings. *)
From Verif Require Import Base ModelSpan ModelComb SpecDoc ProofBase.

(** Position [n] ends the line content: a newline or the carriage return
    before one. *)
Definition at_eol (l : str) (n : nat) : Prop :=
  nth_error l n = Some b_nl \/
  (nth_error l n = Some b_cr /\ nth_error l (S n) = Some b_nl).

(** [n] is where "take until one of [pats] or the end of the line" must stop. *)
Definition line_stop (pats : list str) (l : str) (n : nat) : Prop :=
  n <= length l /\ no_nl (firstn n l) /\
  (forall k pat, k < n -> In pat pats -> ~ occ pat l k) /\
  (n = length l \/ at_eol l n \/ exists pat, In pat pats /\ occ pat l n).

Lemma no_nl_nth l n :
  (forall k, k < n -> nth_error l k <> Some b_nl) -> no_nl (firstn n l).
Proof.
  intros H Hi. apply In_nth_error in Hi as [k Hk].
  assert (k < n).
  { assert (k < length (firstn n l)) by (apply nth_error_Some; congruence).
    rewrite firstn_length in *. lia. }
  rewrite nth_error_firstn in Hk by lia. eapply H; eauto.
Qed.

Lemma no_nl_nth' l k : no_nl l -> nth_error l k <> Some b_nl.
Proof. intros H Hk. apply H. eapply nth_error_In; eauto. Qed.

Lemma nth_error_byte_at l k b : nth_error l k = Some b -> byte_at l k = b.
Proof. intro H. unfold byte_at. erewrite nth_error_nth; eauto. Qed.

Lemma byte_at_nth l k : k < length l -> nth_error l k = Some (byte_at l k).
Proof. intro H. unfold byte_at. now apply nth_error_nth'. Qed.

Lemma eol_pos_spec l pos :
  nth_error l pos = Some b_nl ->
  (eol_pos l pos = pos \/ (eol_pos l pos = pos - 1 /\ 0 < pos /\ nth_error l (pos - 1) = Some b_cr)).
Proof.
  intro H. unfold eol_pos.
  destruct (0 <? pos) eqn:E; simpl; auto. apply Nat.ltb_lt in E.
  destruct (beqb (byte_at l (pos - 1)) b_cr) eqn:E2; auto.
  apply beqb_eq in E2. right. repeat split; auto.
  rewrite byte_at_nth; [congruence|].
  assert (pos < length l) by (apply nth_error_Some; congruence). lia.
Qed.

Lemma eol_pos_at_eol l pos :
  nth_error l pos = Some b_nl -> at_eol l (eol_pos l pos) /\ eol_pos l pos <= pos.
Proof.
  intro H. destruct (eol_pos_spec l pos H) as [-> | [-> [H1 H2]]].
  - split; [left; auto | lia].
  - split; [right | lia]. split; auto. now replace (S (pos - 1)) with pos by lia.
Qed.

(** Shared reasoning: a newline at [pos], no newline before it and no pattern
    before it. *)
Lemma line_stop_eol pats l pos :
  nth_error l pos = Some b_nl ->
  (forall k, k < pos -> nth_error l k <> Some b_nl) ->
  (forall k pat, k < pos -> In pat pats -> ~ occ pat l k) ->
  line_stop pats l (eol_pos l pos).
Proof.
  intros H1 H2 H3. destruct (eol_pos_at_eol _ _ H1) as [H4 H5].
  assert (pos < length l) by (apply nth_error_Some; congruence).
  repeat split.
  - lia.
  - apply no_nl_nth. intros k Hk. apply H2. lia.
  - intros k pat Hk. apply H3. lia.
  - auto.
Qed.

Lemma line_stop_pat pats pat l pos :
  pos <= length l -> In pat pats -> occ pat l pos ->
  (forall k, k < pos -> nth_error l k <> Some b_nl) ->
  (forall k pat, k < pos -> In pat pats -> ~ occ pat l k) ->
  line_stop pats l pos.
Proof.
  intros H0 H1 H2 H3 H4. repeat split; auto.
  - now apply no_nl_nth.
  - right. right. eauto.
Qed.

Lemma line_stop_end pats l :
  (forall k, nth_error l k <> Some b_nl) ->
  (forall k pat, In pat pats -> ~ occ pat l k) ->
  line_stop pats l (length l).
Proof. intros H1 H2. repeat split; auto. apply no_nl_nth. auto. Qed.

(** Invariant of the loops: nothing interesting before the positions left. *)
Definition fresh (pats : list str) (l : str) (poss : list nat) : Prop :=
  asc poss /\
  (forall k, nth_error l k = Some b_nl -> In k poss \/ False) /\
  (forall k pat, In pat pats -> occ pat l k -> In k poss).

Lemma asc_in_le k poss j : asc (k :: poss) -> In j (k :: poss) -> k <= j.
Proof.
  intros H [->|H1]; [lia|]. inversion H as [|? ? H2 _]; subst.
  rewrite Forall_forall in H2. specialize (H2 _ H1). lia.
Qed.

Lemma tlu_loop_spec pat l poss :
  pat <> [] -> length pat <= 2 -> asc poss ->
  (forall k, In k poss -> k < length l) ->
  (forall k, nth_error l k = Some b_nl -> In k poss) ->
  (forall k, occ pat l k -> In k poss) ->
  line_stop [pat] l (tlu_loop pat l poss).
Proof.
  intros Hp Hlen. induction poss as [|pos ps IH]; simpl; intros Ha Hlt Hn Ho.
  - apply line_stop_end; [intros k Hk; apply (Hn k Hk)|].
    intros k pt [<-|[]] Hk. apply (Ho k Hk).
  - assert (Hbn : forall k, k < pos -> nth_error l k <> Some b_nl).
    { intros k Hk Hc. pose proof (asc_in_le _ _ _ Ha (Hn _ Hc)). lia. }
    assert (Hbo : forall k pt, k < pos -> In pt [pat] -> ~ occ pt l k).
    { intros k pt Hk [<-|[]] Hc. pose proof (asc_in_le _ _ _ Ha (Ho _ Hc)). lia. }
    pose proof (Hlt pos (or_introl eq_refl)) as Hpl.
    destruct (beqb (byte_at l pos) b_nl) eqn:E.
    { apply beqb_eq in E. apply line_stop_eol; auto. rewrite byte_at_nth; congruence. }
    destruct (length l <? pos + length pat) eqn:E1.
    { apply Nat.ltb_lt in E1. apply line_stop_end.
      - intros k Hk. destruct (lt_dec k pos); [now apply (Hbn k)|].
        assert (k < length l) by (apply nth_error_Some; congruence).
        assert (k = pos) by lia. subst. apply nth_error_byte_at in Hk.
        apply beqb_neq in E. congruence.
      - intros k pt [<-|[]] Hk. destruct (lt_dec k pos); [now apply (Hbo k pat); [|left|]|].
        destruct (occ_iff _ _ _ Hk) as [_ H]. specialize (H Hp). lia. }
    destruct (str_eqb (slice pos (pos + length pat) l) pat) eqn:E2.
    { apply str_eqb_eq in E2. apply (line_stop_pat _ pat); auto; [lia|now left|now apply slice_occ]. }
    apply IH.
    + now inversion Ha.
    + intros k Hk. apply Hlt. now right.
    + intros k Hk. destruct (Hn k Hk) as [->|]; auto.
      apply nth_error_byte_at in Hk. apply beqb_neq in E. congruence.
    + intros k Hk. destruct (Ho k Hk) as [->|]; auto.
      apply str_eqb_neq in E2. exfalso. apply E2. now apply occ_iff.
Qed.

Lemma occ_pat0 pat l k : pat <> [] -> occ pat l k -> nth_error l k = Some (pat0 pat).
Proof. intros H Ho. destruct pat; [congruence|]. simpl. eapply occ_first; eauto. Qed.

Lemma positions_lt {A} (p : A -> bool) l k : In k (positions p l) -> k < length l.
Proof.
  intro H. apply positions_in in H as [x [H _]]. apply nth_error_Some. congruence.
Qed.

Lemma tlu_pos_spec pat l :
  pat <> [] -> length pat <= 2 -> line_stop [pat] l (tlu_pos pat l).
Proof.
  intros Hp Hl. apply tlu_loop_spec; auto.
  - apply positions_asc.
  - intros k. apply positions_lt.
  - intros k Hk. apply positions_in. exists b_nl. auto.
  - intros k Hk. apply positions_in. exists (pat0 pat).
    split; [now apply occ_pat0|]. rewrite beqb_refl. apply orb_true_r.
Qed.

Lemma at_pos_spec pat l pos : pat <> [] -> at_pos pat l pos = true <-> occ pat l pos.
Proof.
  intro Hp. unfold at_pos. rewrite andb_true_iff, Nat.leb_le, str_eqb_eq. split.
  - intros [_ H]. now apply slice_occ.
  - intro H. apply occ_iff in H as [H1 H2]. auto.
Qed.

Lemma tlu2_loop_spec p1 p2 l poss :
  p1 <> [] -> p2 <> [] -> asc poss ->
  (forall k, In k poss -> k < length l) ->
  (forall k, nth_error l k = Some b_nl -> In k poss) ->
  (forall k pat, In pat [p1; p2] -> occ pat l k -> In k poss) ->
  line_stop [p1; p2] l (tlu2_loop p1 p2 l poss).
Proof.
  intros Hp1 Hp2. induction poss as [|pos ps IH]; simpl; intros Ha Hlt Hn Ho.
  - apply line_stop_end; [intros k Hk; apply (Hn k Hk)|].
    intros k pt Hi Hk. apply (Ho k pt Hi Hk).
  - assert (Hbn : forall k, k < pos -> nth_error l k <> Some b_nl).
    { intros k Hk Hc. pose proof (asc_in_le _ _ _ Ha (Hn _ Hc)). lia. }
    assert (Hbo : forall k pt, k < pos -> In pt [p1; p2] -> ~ occ pt l k).
    { intros k pt Hk Hi Hc. pose proof (asc_in_le _ _ _ Ha (Ho _ _ Hi Hc)). lia. }
    pose proof (Hlt pos (or_introl eq_refl)) as Hpl.
    destruct (beqb (byte_at l pos) b_nl) eqn:E.
    { apply beqb_eq in E. apply line_stop_eol; auto. rewrite byte_at_nth; congruence. }
    destruct (at_pos p1 l pos || at_pos p2 l pos) eqn:E2.
    { apply orb_true_iff in E2 as [E2|E2]; apply at_pos_spec in E2; auto.
      - apply (line_stop_pat _ p1); auto; [lia|simpl; auto].
      - apply (line_stop_pat _ p2); auto; [lia|simpl; auto]. }
    apply orb_false_iff in E2 as [E2 E3].
    apply IH.
    + now inversion Ha.
    + intros k Hk. apply Hlt. now right.
    + intros k Hk. destruct (Hn k Hk) as [->|]; auto.
      apply nth_error_byte_at in Hk. apply beqb_neq in E. congruence.
    + intros k pt Hi Hk. destruct (Ho k pt Hi Hk) as [->|]; auto.
      exfalso. destruct Hi as [<-|[<-|[]]]; apply at_pos_spec in Hk; auto; congruence.
Qed.

Lemma tlu2_pos_spec p1 p2 l :
  p1 <> [] -> p2 <> [] -> line_stop [p1; p2] l (tlu2_pos p1 p2 l).
Proof.
  intros Hp1 Hp2. apply tlu2_loop_spec; auto.
  - apply positions_asc.
  - intros k. apply positions_lt.
  - intros k Hk. apply positions_in. exists b_nl. auto.
  - intros k pat Hi Hk. apply positions_in. exists (pat0 pat).
    destruct Hi as [<-|[<-|[]]]; (split; [now apply occ_pat0|]); rewrite beqb_refl;
      rewrite ?orb_true_r; auto.
Qed.

(** Without a newline in sight. *)
Lemma tlu3_loop_spec p1 p2 p3 l lp poss :
  p1 <> [] -> p2 <> [] -> p3 <> [] -> asc poss ->
  (forall k, In k poss -> k < length l) ->
  (forall k pat, In pat [p1; p2; p3] -> occ pat l k -> In k poss) ->
  match lp with
  | Some n => n <= length l /\ at_eol l n /\ (forall k, k < n -> nth_error l k <> Some b_nl)
  | None => forall k, nth_error l k <> Some b_nl
  end ->
  line_stop [p1; p2; p3] l (tlu3_loop p1 p2 p3 l lp poss).
Proof.
  intros Hp1 Hp2 Hp3. induction poss as [|pos ps IH]; simpl; intros Ha Hlt Ho Hlp.
  - destruct lp as [n|].
    + destruct Hlp as [H1 [H2 H3]]. split; [auto|]. split; [now apply no_nl_nth|]. split; [|auto].
      intros k pt _ Hi Hk. apply (Ho k pt Hi Hk).
    + apply line_stop_end; [auto | intros k pt Hi Hk; apply (Ho k pt Hi Hk)].
  - assert (Hbo : forall k pt, k < pos -> In pt [p1; p2; p3] -> ~ occ pt l k).
    { intros k pt Hk Hi Hc. pose proof (asc_in_le _ _ _ Ha (Ho _ _ Hi Hc)). lia. }
    pose proof (Hlt pos (or_introl eq_refl)) as Hpl.
    assert (Hhit : (forall k, k < pos -> nth_error l k <> Some b_nl) ->
       line_stop [p1; p2; p3] l (if at_pos p1 l pos || at_pos p2 l pos || at_pos p3 l pos then pos
                  else tlu3_loop p1 p2 p3 l lp ps)).
    { intro Hbn. destruct (at_pos p1 l pos || at_pos p2 l pos || at_pos p3 l pos) eqn:E2.
      - apply orb_true_iff in E2 as [E2|E2]; [apply orb_true_iff in E2 as [E2|E2]|];
          apply at_pos_spec in E2; auto.
        + apply (line_stop_pat _ p1); auto; [lia|simpl; auto].
        + apply (line_stop_pat _ p2); auto; [lia|simpl; auto].
        + apply (line_stop_pat _ p3); auto; [lia|simpl; auto].
      - apply orb_false_iff in E2 as [E2 E4]. apply orb_false_iff in E2 as [E2 E3].
        apply IH; auto.
        + now inversion Ha.
        + intros k pt Hi Hk. destruct (Ho k pt Hi Hk) as [->|]; auto.
          exfalso. destruct Hi as [<-|[<-|[<-|[]]]]; apply at_pos_spec in Hk; auto; congruence. }
    destruct lp as [n|].
    + destruct Hlp as [H1 [H2 H3]].
      destruct (n <=? pos) eqn:E.
      * apply Nat.leb_le in E. split; [auto|]. split; [now apply no_nl_nth|].
        split; [|auto]. intros k pt Hk Hi. apply Hbo; auto. lia.
      * apply Nat.leb_gt in E. apply Hhit. intros k Hk. apply H3. lia.
    + apply Hhit. auto.
Qed.

Lemma tlu3_pos_spec p1 p2 p3 l :
  p1 <> [] -> p2 <> [] -> p3 <> [] -> line_stop [p1; p2; p3] l (tlu3_pos p1 p2 p3 l).
Proof.
  intros Hp1 Hp2 Hp3. apply tlu3_loop_spec; auto.
  - apply positions_asc.
  - intros k. apply positions_lt.
  - intros k pat Hi Hk. apply positions_in. exists (pat0 pat).
    destruct Hi as [<-|[<-|[<-|[]]]]; (split; [now apply occ_pat0|]); rewrite beqb_refl;
      rewrite ?orb_true_r; auto.
  - destruct (find_pos is_nl l) as [n|] eqn:E; simpl.
    + pose proof (find_pos_lt _ _ _ E). apply find_pos_some in E as [[x [E1 E2]] E3].
      apply beqb_eq in E2. subst x.
      destruct (eol_pos_at_eol _ _ E1) as [H1 H2].
      repeat split; auto; [lia|]. intros k Hk Hc.
      rewrite Forall_forall in E3. specialize (E3 b_nl).
      enough (is_nl b_nl = false) by discriminate. apply E3.
      eapply nth_error_In. rewrite nth_error_firstn; [eassumption | lia].
    + apply find_pos_none in E. intros k Hc. rewrite Forall_forall in E.
      enough (is_nl b_nl = false) by discriminate. apply E.
      eapply nth_error_In. eassumption.
Qed.

(** Position where [take_until_end_of_line_or_input] stops. *)
Definition eol_stop (l : str) : nat :=
  match find_pos is_nl l with Some pos => eol_pos l pos | None => length l end.

Lemma eol_stop_spec l : line_stop [] l (eol_stop l).
Proof.
  unfold eol_stop. destruct (find_pos is_nl l) as [n|] eqn:E.
  - pose proof (find_pos_lt _ _ _ E). apply find_pos_some in E as [[x [E1 E2]] E3].
    apply beqb_eq in E2. subst x. apply line_stop_eol; auto.
    + intros k Hk Hc. rewrite Forall_forall in E3. specialize (E3 b_nl).
      enough (is_nl b_nl = false) by discriminate. apply E3.
      eapply nth_error_In. rewrite nth_error_firstn; [eassumption | lia].
  - apply find_pos_none in E. apply line_stop_end; [|contradiction].
    intros k Hc. rewrite Forall_forall in E.
    enough (is_nl b_nl = false) by discriminate. apply E.
    eapply nth_error_In. eassumption.
Qed.
