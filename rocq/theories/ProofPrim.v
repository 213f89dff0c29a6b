(** Contracts of the line-level primitives: surrounded text, repeated
    characters, whole words, URI text. *)
From Verif Require Import Base ModelSpan ModelComb ModelAst ModelLink ModelInline
  SpecDoc ProofBase ProofBytes ProofContract.

Section Prim.
Context {EV : env}.
Local Notation inner := (e_inner EV).
Local Notation bd := (e_bd EV).
Local Notation pan := (e_pan EV).
Local Hint Resolve e_bd_0 : core.
Local Hint Extern 2 (e_bd _ _) => (eapply e_bd_at; eassumption) : core.
Local Hint Extern 2 (e_bd _ (S _)) => (eapply e_bd_after; eassumption) : core.

(** * Surrounded text *)

Lemma occ_slice s pat k :
  sok s -> pat <> [] -> occ pat (remaining s) k ->
  slice (sp_start s + k) (sp_start s + k + length pat) inner = pat /\
  sp_start s + k + length pat <= sp_end s.
Proof.
  intros Hs Hp Ho. apply occ_iff in Ho as [H1 H2]. specialize (H2 Hp).
  assert (Hse : sp_start s <= sp_end s) by apply Hs.
  rewrite remaining_length in H2 by auto. rewrite remaining_eq in H1 by auto.
  rewrite slice_slice in H1 by lia. split; [|lia].
  rewrite <- Nat.add_assoc. exact H1.
Qed.

Lemma slice_occ_inner s pat k :
  sok s -> sp_start s + k + length pat <= sp_end s ->
  slice (sp_start s + k) (sp_start s + k + length pat) inner = pat ->
  occ pat (remaining s) k.
Proof.
  intros Hs Hl H. apply slice_occ. rewrite remaining_eq by auto.
  rewrite slice_slice by lia. rewrite Nat.add_assoc. exact H.
Qed.

(** Result of the loop of [surround_in_line1]. *)
Lemma surround_loop_R R s1 nlpos poss :
  sok s1 -> R <> [] -> ascii_str R ->
  asc poss -> (forall k, In k poss -> k < length (remaining s1)) ->
  (forall k, 0 < k -> occ R (remaining s1) k -> In k poss) ->
  (match nlpos with
   | Some n => nth_error (remaining s1) n = Some b_nl /\
               forall k, k < n -> nth_error (remaining s1) k <> Some b_nl
   | None => forall k, nth_error (remaining s1) k <> Some b_nl end) ->
  ProofContract.R s1 (surround_loop R (remaining s1) nlpos poss s1)
    (fun s' o => exists k, 0 < k /\ occ R (remaining s1) k /\
       sp_start s' = sp_start s1 + k + length R /\
       o = Span inner (sp_start s1) (sp_start s1 + k) (sp_depth s1) /\
       bd (sp_start s1 + k) /\
       (forall j, 0 < j -> j < k -> ~ occ R (remaining s1) j) /\
       (forall j, j < k -> nth_error (remaining s1) j <> Some b_nl)).
Proof.
  intros Hs HR Ha. revert nlpos. induction poss as [|pos ps IH]; intros nlpos Hasc Hlt Hocc Hnl;
    [exact I|].
  cbn [surround_loop].
  destruct (match nlpos with Some n => n <=? pos | None => false end) eqn:En; [exact I|].
  assert (Hasc' : asc ps) by now inversion Hasc.
  assert (Hlt' : forall k, In k ps -> k < length (remaining s1)) by (intros; apply Hlt; now right).
  destruct (pos =? 0) eqn:E0.
  { apply Nat.eqb_eq in E0. subst pos. apply IH; auto.
    intros k Hk Ho. destruct (Hocc k Hk Ho) as [<-|]; [lia | auto]. }
  apply Nat.eqb_neq in E0.
  assert (Hpos : pos < sp_end s1 - sp_start s1).
  { rewrite <- remaining_length by auto. apply Hlt. now left. }
  assert (Hle : pos <= remaining_len s1) by (rewrite rl_eq by auto; lia).
  rewrite advance_start_eq by auto.
  unfold remaining_len at 1. cbn [sp_start sp_end].
  replace (sp_start s1 + pos <=? sp_end s1) with true by (symmetry; apply Nat.leb_le; lia).
  destruct (sp_end s1 - (sp_start s1 + pos) <? length R) eqn:El; [exact I|].
  apply Nat.ltb_ge in El.
  unfold remaining at 1. cbn [advance_end_by sp_start sp_end sp_inner].
  assert (Hmin : forall j, 0 < j -> j < pos -> ~ occ R (remaining s1) j).
  { intros j Hj1 Hj2 Ho. specialize (Hocc j Hj1 Ho).
    pose proof (asc_in_le pos ps j Hasc Hocc). lia. }
  destruct (str_eqb (slice (sp_start s1 + pos) (sp_start s1 + pos + length R) inner) R) eqn:Eq.
  - apply str_eqb_eq in Eq.
    assert (Ho : occ R (remaining s1) pos) by (apply slice_occ_inner; auto; lia).
    assert (HlR : 0 < length R) by (destruct R; [congruence | simpl; lia]).
    assert (Hbk : bd (sp_start s1 + pos)).
    { apply bd_rel; auto. right. right. left. exists (pat0 R). split; [now apply occ_pat0|].
      destruct R; [congruence | now inversion Ha]. }
    assert (Hbe : bd (sp_start s1 + pos + length R)).
    { replace (sp_start s1 + pos + length R) with (S (sp_start s1 + pos + (length R - 1))) by lia.
      assert (exists b, nth_error R (length R - 1) = Some b) as [b Hb].
      { destruct (nth_error R (length R - 1)) eqn:En'; [eauto|].
        apply nth_error_None in En'. lia. }
      apply (e_bd_after EV _ b).
      - rewrite <- Eq in Hb at 1. rewrite nth_error_slice in Hb by lia. exact Hb.
      - eapply Forall_forall in Ha; eauto. eapply nth_error_In; eauto. }
    unfold advance_start_by. cbn [sp_start sp_end sp_inner sp_depth].
    replace (sp_end s1 <? sp_start s1 + pos + length R) with false
      by (symmetry; apply Nat.ltb_ge; lia).
    apply R_ok.
    + repeat split; simpl; auto; lia.
    + exists pos. repeat split; simpl; auto; try lia.
      * unfold advance_end_by. destruct Hs as (-> & _). reflexivity.
      * intros j Hj. destruct nlpos as [n|].
        -- apply Nat.leb_gt in En. apply Hnl. lia.
        -- apply Hnl.
  - apply IH; auto. intros k Hk Ho. destruct (Hocc k Hk Ho) as [<-|]; auto. exfalso.
    apply str_eqb_neq in Eq. apply Eq.
    now apply (occ_slice s1 R pos).
Qed.

Lemma skipn_slice_app {A} i j (l : list A) n :
  skipn n (slice i j l) = slice (i + n) j l.
Proof. apply skipn_slice. Qed.

(** What a surrounded-text parser returns: the body as a span. *)
Definition surr (L R : str) (s s' o : span) : Prop :=
  surrounded_by inner L R (sp_start s) (sp_start s') (remaining o) /\
  sok o /\ sp_depth o = sp_depth s /\
  sp_start o = sp_start s + length L /\ sp_end o + length R = sp_start s'.

Lemma surr_sub L R s s' o : sok s -> adv s s' -> surr L R s s' o -> sub s s' o.
Proof. intros Hs Ha (_ & H1 & H2 & H3 & H4). repeat split; auto; try apply H1; lia. Qed.

Lemma surr_rl L R s s' o :
  sok s -> adv s s' -> 0 < length L -> surr L R s s' o -> remaining_len o < remaining_len s.
Proof.
  intros Hs Ha HL (_ & H1 & H2 & H3 & H4). rewrite !rl_eq by auto.
  destruct Ha as (_ & _ & _ & K1 & K2 & _). destruct H1 as (_ & H1 & _). lia.
Qed.

Lemma G_surround_raw n L R :
  ascii_str L -> ascii_str R -> R <> [] ->
  G n (surround_in_line1 L R) (fun s s' o =>
    exists s1 k, adv s s1 /\ txt s s1 = L /\ 0 < k /\
      sp_start s' = sp_start s1 + k + length R /\
      o = Span inner (sp_start s1) (sp_start s1 + k) (sp_depth s) /\ bd (sp_start s1 + k) /\
      occ R (remaining s1) k /\
      (forall j, 0 < j -> j < k -> ~ occ R (remaining s1) j) /\
      (forall j, j < k -> nth_error (remaining s1) j <> Some b_nl)).
Proof.
  intros HL HR HR0 s Hs Hn. unfold surround_in_line1.
  eapply G_bind; [apply (G_tag n L HL)| | |]; auto.
  intros s1 o Ha Hs1 Hn1 [HtL _].
  eapply R_weaken; [apply surround_loop_R; auto|].
  - apply positions_asc.
  - intros k. apply positions_lt.
  - intros k Hk Ho. apply positions_in. exists (pat0 R). split; [now apply occ_pat0|].
    apply beqb_refl.
  - destruct (find_pos is_nl (remaining s1)) as [m|] eqn:E.
    + apply find_pos_some in E as [[x [E1 E2]] E3]. apply beqb_eq in E2. subst x.
      split; auto. intros k Hk Hc. rewrite Forall_forall in E3.
      assert (In b_nl (firstn m (remaining s1))).
      { eapply nth_error_In with (n := k). now rewrite nth_error_firstn. }
      specialize (E3 _ H). discriminate.
    + apply find_pos_none in E. intros k Hc. rewrite Forall_forall in E.
      specialize (E _ (nth_error_In _ _ Hc)). discriminate.
  - cbv beta. intros s' o' Ha' (k & H1 & H2 & H3 & H4 & H5 & H6 & H7).
    exists s1, k. repeat split; auto; try apply Ha.
    rewrite H4. f_equal. apply Ha.
Qed.

Lemma G_not_contains n pat (p : parser span) Q :
  G n p Q -> pat <> [] ->
  G n (not_contains pat p) (fun s s' o => Q s s' o /\ absent pat (remaining o)).
Proof.
  intros H Hp s Hs Hn. unfold not_contains. eapply G_bind; eauto.
  intros s1 o Ha Hs1 Hn1 HQ. unfold pnot, offset.
  pose proof (offset_of_spec pat (remaining o) Hp) as Ho.
  destruct (offset_of pat (remaining o)); simpl; [exact I|].
  apply R_ok; auto using adv_refl. split; auto. now apply absent_no_occ.
Qed.

Lemma G_surround n L R :
  ascii_str L -> ascii_str R -> R <> [] ->
  G n (not_contains pct2 (surround_in_line1 L R)) (fun s s' o => surr L R s s' o).
Proof.
  intros HL HR HR0. eapply G_weaken.
  - apply G_not_contains; [now apply G_surround_raw | discriminate].
  - cbv beta. intros s s' o Hs Ha
      [(s1 & k & H1 & H2 & H3 & H4 & H5 & H6 & H7 & H8 & H9) H10].
    assert (Hs1 : sok s1) by eauto using adv_sok.
    destruct (occ_slice s1 R k Hs1 HR0 H7) as [O1 O2].
    assert (Hlen : sp_start s1 = sp_start s + length L).
    { pose proof (txt_length _ _ Hs H1) as Hl. rewrite H2 in Hl.
      destruct H1 as (_ & _ & _ & ? & _). lia. }
    assert (Hend : sp_end s1 = sp_end s) by apply H1.
    assert (Hrem : remaining o = firstn k (remaining s1)).
    { subst o. unfold remaining at 1. cbn [sp_start sp_end sp_inner].
      rewrite firstn_remaining; auto. rewrite rl_eq by auto. lia. }
    assert (Hb2 : firstn k (remaining s1) = slice (sp_start s1) (sp_start s1 + k) inner).
    { rewrite firstn_remaining; auto. rewrite rl_eq by auto. lia. }
    assert (Hbig : firstn (k + length R) (remaining s1)
                   = slice (sp_start s1) (sp_start s1 + k + length R) inner).
    { rewrite firstn_remaining; [f_equal; lia | auto |]. rewrite rl_eq by auto. lia. }
    assert (Hsplit : firstn k (remaining s1) ++ R = firstn (k + length R) (remaining s1)).
    { rewrite Hb2, Hbig. rewrite <- O1 at 1. symmetry. apply slice_app; lia. }
    split; [|split; [|split; [|split]]].
    + rewrite Hrem. split; [|split; [|split; [|split]]].
      * rewrite Hsplit, Hbig, H4, <- H2. unfold txt.
        apply slice_app; lia.
      * intro E. apply (f_equal (@length _)) in E. rewrite firstn_length in E. simpl in E.
        rewrite remaining_length in E by auto. lia.
      * apply no_nl_nth. intros j Hj. apply H9; lia.
      * rewrite <- Hrem. exact H10.
      * rewrite Hsplit. intros i Hi Hst. rewrite firstn_length, remaining_length by auto.
        destruct (le_lt_dec k i); [lia|]. exfalso. apply (H8 i); auto. unfold occ.
        apply starts_with_spec in Hst as [r Hr]. apply starts_with_spec.
        exists (r ++ skipn (k + length R - i) (skipn i (remaining s1))).
        rewrite app_assoc, <- Hr. rewrite skipn_firstn_comm.
        replace (k + length R - i) with (k + length R - i) by lia.
        symmetry. apply firstn_skipn.
    + subst o. repeat split; simpl; auto; try lia; try apply Hs1. destruct Hs1 as (_ & _ & ? & _). lia.
    + subst o. reflexivity.
    + subst o. simpl. lia.
    + subst o. simpl. lia.
Qed.

(** * Runs of one character *)

Lemma anychar_pchar c s s1 :
  pchar c s = Ok s1 c -> anychar s = Ok s1 c.
Proof.
  unfold pchar, anychar. destruct (remaining s) as [|b r]; [discriminate|].
  destruct (beqb b c) eqn:E; [|discriminate]. apply beqb_eq in E. now subst b.
Qed.

Lemma G_single_char n c :
  is_ascii c = true -> c <> b_nl -> c <> b_cr ->
  G n (single_char (pchar c)) (fun s s' a => txt s s' = [c]).
Proof.
  intros Hc _ _ s Hs Hn. unfold single_char.
  eapply G_bind; [eapply G_pnot, (G_end_of_line_or_input n)| | |]; auto.
  intros s1 u Ha Hs1 Hn1 [-> _].
  pose proof (G_pchar n c Hc s Hs Hn) as H. unfold R in *.
  destruct (pchar c s) as [s2 x| | |] eqn:E; simpl; auto.
  assert (x = c).
  { unfold pchar in E. destruct (remaining s); [discriminate|].
    destruct (beqb b c); [|discriminate]. congruence. }
  subst x. rewrite (anychar_pchar _ _ _ E). exact H.
Qed.

(** [s .. s'] is a run of [c] followed by something else. *)
Definition run (c : byte) (s s' : span) : Prop :=
  Forall (fun b => b = c) (txt s s') /\ next s' <> Some c.

Lemma single_char_err c s :
  sok s -> is_ascii c = true -> c <> b_nl -> c <> b_cr ->
  single_char (pchar c) s = Err -> next s <> Some c.
Proof.
  intros Hs Hc H1 H2 H Hn. unfold next in Hn.
  destruct (remaining s) as [|b r] eqn:E; [discriminate|]. simpl in Hn. injection Hn as ->.
  assert (He : end_of_line_or_input s = Err).
  { unfold end_of_line_or_input, sp_is_empty. rewrite rl_eq, <- remaining_length, E by auto.
    simpl. unfold line_ending, palt, tag. rewrite E. unfold nl_str, crlf_str.
    cbn [starts_with].
    destruct (beqb b_nl c) eqn:E1; [apply beqb_eq in E1; congruence|].
    destruct (beqb b_cr c) eqn:E2; [apply beqb_eq in E2; congruence|]. reflexivity. }
  unfold single_char, pnot in H. rewrite He in H. simpl in H.
  unfold pchar, anychar in H. rewrite E, beqb_refl in H. simpl in H. discriminate.
Qed.

Lemma steps_run c s l s' :
  sok s -> steps (EV := EV) (fun s s' (_ : byte) => txt s s' = [c]) s l s' ->
  Forall (fun b => b = c) (txt s s').
Proof.
  intros Hs H. induction H as [s|s s1 s2 a l Hs0 Ha Hlt HQ Hst IH].
  - rewrite txt_same by auto. constructor.
  - assert (sok s1) by eauto using adv_sok. rewrite (txt_app s s1 s2); auto.
    + rewrite HQ. constructor; auto.
    + eapply steps_adv; eauto.
Qed.

Lemma G_take_line_while1 n c :
  is_ascii c = true -> c <> b_nl -> c <> b_cr ->
  G n (take_line_while1 (pchar c))
    (fun s s' o => o = cov s s' /\ run c s s' /\ sp_start s < sp_start s').
Proof.
  intros Hc H1 H2. unfold take_line_while1. apply G_non_empty. unfold take_line_while.
  eapply G_weaken; [apply G_recognize, G_many0, (G_single_char n c Hc H1 H2)|].
  intros s s' o Hs Ha [-> [l [Hst He]]]. split; auto. split.
  - eapply steps_run; eauto.
  - eapply single_char_err; eauto using adv_sok.
Qed.

Lemma run_repeat c s s' : sok s -> adv s s' -> run c s s' -> txt s s' = repeat c (sp_start s' - sp_start s).
Proof.
  intros Hs Ha [H _]. rewrite <- (txt_length _ _ Hs Ha).
  revert H. generalize (txt s s') as l. induction l; simpl; auto.
  intro H. inversion H; subst. f_equal. auto.
Qed.

(** * Where inline text may begin *)

Definition seam (t : nat) : Prop :=
  t = 0 \/ (exists b, nth_error inner (t - 1) = Some b /\ is_ascii_ws b = true) \/
  (exists b, nth_error inner t = Some b /\ is_ascii_ws b = true) \/ cut_at inner t.

Definition edge (s : span) : Prop := sp_start s = sp_end s \/ seam (sp_start s).

Lemma edge_next s b : sok s -> next s = Some b -> is_ascii_ws b = true -> edge s.
Proof.
  intros Hs Hn Hb. right. right. right. left. exists b. split; auto.
  unfold next in Hn. apply nth_remaining in Hn as [Hn _]; auto. now rewrite Nat.add_0_r in Hn.
Qed.

Lemma edge_none s : sok s -> next s = None -> edge s.
Proof.
  intros Hs Hn. left. unfold next in Hn. apply nth_error_None in Hn.
  rewrite remaining_length in Hn by auto. destruct Hs as (_ & ? & _). lia.
Qed.

Lemma edge_stop s :
  sok s -> (forall b, next s = Some b -> is_ascii_ws b = true) -> edge s.
Proof.
  intros Hs H. destruct (next s) as [b|] eqn:E; [eapply edge_next | apply edge_none]; eauto.
Qed.

(** Text just consumed ends with [b]. *)
Lemma txt_last s s' l b :
  sok s -> adv s s' -> txt s s' = l ++ [b] -> nth_error inner (sp_start s' - 1) = Some b.
Proof.
  intros Hs Ha H. pose proof (txt_length s s' Hs Ha) as Hl. rewrite H in Hl.
  rewrite app_length in Hl. cbn in Hl.
  assert (E : nth_error (txt s s') (length l) = Some b).
  { rewrite H, nth_error_app2, Nat.sub_diag by lia. reflexivity. }
  unfold txt in E. rewrite nth_error_slice in E by lia.
  now replace (sp_start s' - 1) with (sp_start s + length l) by lia.
Qed.

Lemma edge_ws s s' l b :
  sok s -> adv s s' -> txt s s' = l ++ [b] -> is_ascii_ws b = true -> edge s'.
Proof. intros Hs Ha H Hb. right. right. left. exists b. eauto using txt_last. Qed.

Lemma edge_byte s s' l b :
  sok s -> adv s s' -> txt s s' = l ++ [b] -> seam_byte b = true -> edge s'.
Proof. intros Hs Ha H Hb. right. right. right. right. left. exists b. eauto using txt_last. Qed.

Lemma edge_kw s s' k : sok s -> adv s s' -> txt s s' = kw_str k -> edge s'.
Proof.
  intros Hs Ha H. right. right. right. right. right. exists k.
  pose proof (txt_length s s' Hs Ha) as Hl. rewrite H in Hl.
  assert (sp_start s <= sp_start s') by apply Ha.
  split; [lia|]. rewrite <- H at 2. unfold txt. f_equal. lia.
Qed.

(** * Whole words *)

(** [i] is at the beginning of a word: at the start or after whitespace. *)
Definition bow (i : nat) : Prop :=
  i = 0 \/ exists b, nth_error inner (i - 1) = Some b /\ is_ascii_ws b = true.

Lemma negb_ws_ascii b : negb (is_ascii_ws b) = false -> is_ascii b = true.
Proof. intro H. apply is_ascii_ws_ascii. now apply negb_false_iff. Qed.

Lemma G_whole_word n :
  G n whole_word (fun s s' o => o = cov s s' /\ bow (sp_start s) /\
     Forall (fun b => is_ascii_ws b = false) (txt s s') /\ sp_start s < sp_start s' /\ edge s').
Proof.
  intros s Hs Hn. unfold whole_word.
  assert (Hb : negb match rev (consumed s) with [] => true | c :: _ => is_ascii_ws c end = false ->
               bow (sp_start s)).
  { pose proof (consumed_length s Hs) as Hl. destruct (rev (consumed s)) as [|c r] eqn:E.
    - intros _. left. apply (f_equal (@length _)) in E. rewrite rev_length in E. simpl in E. lia.
    - intro H. apply negb_false_iff in H. right. apply rev_head in E as [E1 E2].
      rewrite Hl in *. exists c. split; auto. unfold consumed in E1.
      rewrite nth_error_firstn in E1 by lia. destruct Hs as (<- & _). exact E1. }
  destruct (negb match rev (consumed s) with [] => true | c :: _ => is_ascii_ws c end) eqn:E;
    [exact I|]. specialize (Hb eq_refl).
  unfold take_while1.
  destruct (count_while (fun c => negb (is_ascii_ws c)) (remaining s) =? 0) eqn:E0; [exact I|].
  apply Nat.eqb_neq in E0.
  apply R_while; auto using bd_known_until, negb_ws_ascii.
  intros s' Ha Hst H1 H2. split; auto. split; auto. split; [|split; [lia|]].
  - eapply Forall_impl; [|exact H1]. intros b Hb'. now apply negb_true_iff.
  - apply edge_stop; [eauto using adv_sok|]. intros b Hb'. specialize (H2 b Hb').
    now apply negb_false_iff in H2.
Qed.

(** * Text up to the next space or line ending *)

(** Number of bytes before a space, a tab or a line ending. *)
Fixpoint word_len (l : str) : nat :=
  match l with
  | [] => 0
  | b :: r => if is_space b || is_nl b || (beqb b b_cr && starts_with nl_str r)
              then 0 else S (word_len r)
  end.

Definition at_multispace (l : str) : bool :=
  match l with
  | [] => false
  | b :: r => is_space b || is_nl b || (beqb b b_cr && starts_with nl_str r)
  end.

Lemma single_multispace_spec s :
  (at_multispace (remaining s) = true -> exists s', single_multispace s = Ok s' tt) /\
  (at_multispace (remaining s) = false -> single_multispace s = Err).
Proof.
  unfold single_multispace, value, pmap, crlf. cbn [alt].
  unfold palt, tag, fail. unfold crlf_str, nl_str.
  destruct (remaining s) as [|b r]; cbn [at_multispace starts_with].
  - split; [discriminate | reflexivity].
  - rewrite !andb_true_r.
    destruct (beqb b_cr b) eqn:E1.
    + apply beqb_eq in E1. subst b. rewrite beqb_refl.
      change (is_space b_cr) with false. change (is_nl b_cr) with false.
      change (beqb b_nl b_cr) with false. change (beqb b_tab b_cr) with false.
      change (beqb b_sp b_cr) with false. cbn [orb andb].
      unfold nl_str. destruct r as [|b' r']; cbn [starts_with]; [split; [discriminate|reflexivity]|].
      rewrite !andb_true_r. destruct (beqb b_nl b') eqn:E2; cbn [andb].
      * split; [cbn; eauto | discriminate].
      * split; [discriminate|reflexivity].
    + cbn [andb]. assert (beqb b b_cr = false) as ->.
      { apply beqb_neq. apply beqb_neq in E1. congruence. }
      unfold is_nl. cbn [andb]. rewrite orb_false_r.
      destruct (beqb b_nl b) eqn:E2.
      { apply beqb_eq in E2. subst b. cbn. split; [eauto|discriminate]. }
      destruct (beqb b_tab b) eqn:E3.
      { apply beqb_eq in E3. subst b. cbn. split; [eauto|discriminate]. }
      destruct (beqb b_sp b) eqn:E4.
      { apply beqb_eq in E4. subst b. cbn. split; [eauto|discriminate]. }
      split; [|reflexivity]. intro H. exfalso. apply orb_true_iff in H as [H|H].
      * destruct b; try discriminate H; cbn in *; discriminate.
      * apply beqb_eq in H. subst b. discriminate.
Qed.

(** The character loop of [uri_ref]. *)
Definition nonspace : parser (unit * byte) := pair (pnot single_multispace) anychar.

Lemma nonspace_step s :
  sp_start s <= sp_end s -> sp_end s <= length (sp_inner s) ->
  match remaining s with
  | [] => nonspace s = Err
  | b :: r => if at_multispace (b :: r) then nonspace s = Err
              else nonspace s = Ok (advance_start_by 1 s) (tt, b)
  end.
Proof.
  intros H1 H2. unfold nonspace, pair, pnot, anychar.
  destruct (single_multispace_spec s) as [A B].
  destruct (remaining s) as [|b r] eqn:E.
  - rewrite (B eq_refl). simpl. now rewrite E.
  - destruct (at_multispace (b :: r)) eqn:Em.
    + destruct (A eq_refl) as [s' ->]. reflexivity.
    + rewrite (B eq_refl). simpl. now rewrite E.
Qed.

Lemma remaining_advance s k :
  sp_start s <= sp_end s -> k <= sp_end s - sp_start s ->
  remaining (Span (sp_inner s) (sp_start s + k) (sp_end s) (sp_depth s)) = skipn k (remaining s).
Proof. intros H1 H2. unfold remaining. cbn. now rewrite skipn_slice. Qed.

Lemma many0_nonspace fuel i st e d :
  st <= e -> e <= length i -> e - st < fuel ->
  exists l, many0_fuel fuel nonspace (Span i st e d)
            = Ok (Span i (st + word_len (slice st e i)) e d) l /\
            length l = word_len (slice st e i).
Proof.
  revert st. induction fuel as [|f IH]; intros st H1 H2 H3; [lia|].
  cbn [many0_fuel]. pose proof (nonspace_step (Span i st e d) H1 H2) as H.
  unfold remaining in H. cbn [sp_inner sp_start sp_end] in H.
  destruct (slice st e i) as [|b r] eqn:E.
  - rewrite H. cbn. exists []. rewrite Nat.add_0_r. auto.
  - apply slice_cons in E as (E1 & E2 & E3). cbn [word_len]. unfold at_multispace in H.
    destruct (is_space b || is_nl b || (beqb b b_cr && starts_with nl_str r)).
    + rewrite H. exists []. rewrite Nat.add_0_r. auto.
    + rewrite H. unfold advance_start_by. cbn [sp_inner sp_start sp_end sp_depth].
      replace (e <? st + 1) with false by (symmetry; apply Nat.ltb_ge; lia).
      unfold span_eqb at 1. cbn [sp_start].
      replace (st + 1 =? st) with false by (symmetry; apply Nat.eqb_neq; lia). cbn [andb].
      destruct (IH (st + 1) ltac:(lia) H2 ltac:(lia)) as [l [Hl Hl2]].
      replace (slice (st + 1) e i) with r in * by (rewrite E3; f_equal; lia).
      rewrite Hl. cbn [bind]. exists ((tt, b) :: l). split; [|simpl; lia].
      do 2 f_equal. lia.
Qed.

Lemma word_len_le l : word_len l <= length l.
Proof.
  induction l as [|a l IH]; cbn [word_len length]; [lia|].
  destruct (is_space a || is_nl a || (beqb a b_cr && starts_with nl_str l)); lia.
Qed.

Lemma word_len_stop l c :
  nth_error l (word_len l) = Some c -> is_ascii_ws c = true.
Proof.
  induction l as [|b r IH]; [discriminate|]. cbn [word_len].
  destruct (is_space b || is_nl b || (beqb b b_cr && starts_with nl_str r)) eqn:E; cbn; auto.
  intro H. injection H as ->.
  apply orb_true_iff in E as [E|E]; [apply orb_true_iff in E as [E|E]|].
  - now apply is_space_ws.
  - apply beqb_eq in E. subst c. reflexivity.
  - apply andb_true_iff in E as [E _]. apply beqb_eq in E. subst c. reflexivity.
Qed.

Lemma word_len_bd l : bd_known l (word_len l).
Proof.
  destruct (nth_error l (word_len l)) as [c|] eqn:E.
  - right. right. left. exists c. eauto using word_len_stop, is_ascii_ws_ascii.
  - apply nth_error_None in E. pose proof (word_len_le l). right. left. lia.
Qed.

Lemma word_len_free l :
  Forall (fun b => is_space b = false /\ is_nl b = false) (firstn (word_len l) l).
Proof.
  induction l as [|b r IH]; [constructor|]. cbn [word_len].
  destruct (is_space b || is_nl b || (beqb b b_cr && starts_with nl_str r)) eqn:E; cbn; constructor; auto.
  apply orb_false_iff in E as [E _]. now apply orb_false_iff in E.
Qed.

(** The text [uri_ref] looks at. *)
Lemma G_nonspace1 n :
  G n (recognize (many1 nonspace)) (fun s s' o => o = cov s s' /\ sp_start s < sp_start s' /\
     sp_start s' = sp_start s + word_len (remaining s) /\
     Forall (fun b => is_space b = false /\ is_nl b = false) (txt s s') /\ edge s').
Proof.
  intros s Hs Hn. unfold recognize, many1.
  pose proof Hs as (H1 & H2 & H3 & H4 & H5).
  pose proof (nonspace_step s H2 ltac:(rewrite H1; auto)) as H.
  destruct (remaining s) as [|b r] eqn:E; [rewrite H; exact I|].
  destruct (at_multispace (b :: r)) eqn:Em; [rewrite H; exact I|].
  rewrite H. cbn [bind]. destruct (remaining_cons _ _ _ Hs E) as (K1 & K2 & K3).
  rewrite advance_start_eq by (auto; rewrite rl_eq by auto; lia).
  unfold many0.
  destruct (many0_nonspace (S (remaining_len (Span inner (sp_start s + 1) (sp_end s) (sp_depth s))))
    inner (sp_start s + 1) (sp_end s) (sp_depth s)) as [l [Hl _]]; auto; [lia| |].
  { unfold remaining_len. cbn. replace (sp_start s + 1 <=? sp_end s) with true
      by (symmetry; apply Nat.leb_le; lia). lia. }
  rewrite Hl. cbn [bind sp_start].
  replace (slice (sp_start s + 1) (sp_end s) inner) with r by (rewrite K3; f_equal; lia).
  assert (Hw : word_len (remaining s) = S (word_len r)).
  { rewrite E. cbn [word_len]. unfold at_multispace in Em. now rewrite Em. }
  rewrite <- E in *.
  replace (sp_start s + 1 + word_len r) with (sp_start s + word_len (remaining s)) by lia.
  assert (Hle : word_len (remaining s) <= remaining_len s).
  { rewrite rl_eq, <- remaining_length by auto. apply word_len_le. }
  replace (sp_start s + word_len (remaining s) <? sp_start s) with false
    by (symmetry; apply Nat.ltb_ge; lia).
  replace (sp_start s + word_len (remaining s) - sp_start s) with (word_len (remaining s)) by lia.
  apply R_ok.
  - apply adv_advance; auto. apply bd_rel; auto. apply word_len_bd.
  - split; [unfold cov, advance_end_by; cbn; now rewrite H1|]. cbn [sp_start]. split; [lia|]. split; auto.
    split; [unfold txt; cbn [sp_start]; rewrite <- firstn_remaining by auto; apply word_len_free|].
    assert (Ha : adv s (Span inner (sp_start s + word_len (remaining s)) (sp_end s) (sp_depth s))).
    { apply adv_advance; auto. apply bd_rel; auto. apply word_len_bd. }
    apply edge_stop; [eauto using adv_sok|]. intros c Hc. unfold next in Hc.
    erewrite remaining_adv in Hc by (eauto; reflexivity).
    rewrite nth_error_skipn, Nat.add_0_r in Hc. eapply word_len_stop; eauto.
Qed.

(** * The rest of a line, nom's [not_line_ending] *)

Lemma G_not_line_ending n :
  G n not_line_ending (fun s s' o => o = cov s s' /\ no_nl (txt s s') /\ ~ In b_cr (txt s s') /\
     (sp_start s' = sp_end s \/ next s' = Some b_nl \/
      starts_with crlf_str (remaining s') = true)).
Proof.
  intros s Hs Hn. unfold not_line_ending.
  destruct (find_pos (fun b => beqb b b_cr || beqb b b_nl) (remaining s)) as [i|] eqn:E.
  - pose proof (find_pos_lt _ _ _ E) as Hi. rewrite remaining_length in Hi by auto.
    apply find_pos_some in E as [[x [E1 E2]] E3].
    destruct (starts_with [b_cr] (skipn i (remaining s)) &&
              negb (starts_with crlf_str (skipn i (remaining s)))) eqn:Ec; [exact I|].
    assert (Hle : i <= remaining_len s) by (rewrite rl_eq by auto; lia).
    assert (Hx : x = b_cr \/ x = b_nl).
    { apply orb_true_iff in E2 as [E2|E2]; apply beqb_eq in E2; auto. }
    apply R_ok_split; auto.
    + right. right. left. exists x. split; auto. destruct Hx as [-> | ->]; reflexivity.
    + intros s' Ha Hst. split; auto.
      assert (Ht : txt s s' = firstn i (remaining s)).
      { unfold txt. rewrite Hst. symmetry. apply firstn_remaining; auto. }
      rewrite Ht. rewrite Forall_forall in E3. split; [|split].
      * intro Hc. specialize (E3 _ Hc). discriminate.
      * intro Hc. specialize (E3 _ Hc). discriminate.
      * rewrite (remaining_adv s s' i) by auto. unfold next.
        rewrite (remaining_adv s s' i) by auto. rewrite nth_error_skipn, Nat.add_0_r.
        destruct Hx as [-> | ->]; auto. right. right.
        assert (Hsw : starts_with [b_cr] (skipn i (remaining s)) = true).
        { destruct (skipn i (remaining s)) as [|y ys] eqn:Es.
          - rewrite <- (Nat.add_0_r i), <- nth_error_skipn, Es in E1. discriminate.
          - rewrite <- (Nat.add_0_r i), <- nth_error_skipn, Es in E1. cbn in E1.
            injection E1 as ->. reflexivity. }
        rewrite Hsw in Ec. cbn [andb] in Ec. now apply negb_false_iff in Ec.
  - apply find_pos_none in E. rewrite Forall_forall in E.
    apply R_ok_split; auto.
    + right. left. rewrite rl_eq, remaining_length; auto.
    + intros s' Ha Hst.
      assert (Ht : txt s s' = remaining s).
      { unfold txt. rewrite Hst. rewrite rl_eq by auto. rewrite remaining_eq by auto.
        f_equal. destruct Hs as (_ & ? & _). lia. }
      rewrite Ht. split; auto. split; [|split].
      * intro Hc. specialize (E _ Hc). discriminate.
      * intro Hc. specialize (E _ Hc). discriminate.
      * left. rewrite Hst, rl_eq by auto. destruct Hs as (_ & ? & _). lia.
Qed.

End Prim.
