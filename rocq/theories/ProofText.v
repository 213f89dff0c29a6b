(** Text, decorated text and inline containers. *)
From Verif Require Import Base ModelSpan ModelComb ModelAst ModelLink ModelInline
  SpecDoc ProofBase ProofBytes ProofContract ProofPrim ProofInline ProofLink.

Section TextProofs.
Context {EV : env}.
Local Notation inner := (e_inner EV).
Local Notation bd := (e_bd EV).
Local Notation pan := (e_pan EV).
Local Notation uri_parse := (e_uri EV).
Local Notation date_parse := (e_date EV).
Local Notation iok := (inline_ok uri_parse date_parse inner bd).
Local Notation dcok := (dc_ok uri_parse date_parse inner bd).

(** * Contracts with a precondition *)

Definition GP {A} (n : nat) (P : span -> Prop) (p : parser A) (Q : span -> span -> A -> Prop) : Prop :=
  forall s, sok s -> remaining_len s < n -> P s -> R s (p s) (Q s).

Lemma GP_of_G {A} n P (p : parser A) Q : G n p Q -> GP n P p Q.
Proof. intros H s Hs Hn _. now apply H. Qed.

Lemma GP_weaken {A} n (P P' : span -> Prop) (p : parser A) (Q Q' : span -> span -> A -> Prop) :
  GP n P p Q -> (forall s, sok s -> P' s -> P s) ->
  (forall s s' a, sok s -> P' s -> adv s s' -> Q s s' a -> Q' s s' a) -> GP n P' p Q'.
Proof. intros H HP HQ s Hs Hn Hp. eapply R_weaken; [apply H; auto | intros; now apply HQ]. Qed.

Lemma GP_pmap {A B} n P (p : parser A) (f : A -> B) Q (Q' : span -> span -> B -> Prop) :
  GP n P p Q -> (forall s s' a, sok s -> P s -> adv s s' -> Q s s' a -> Q' s s' (f a)) ->
  GP n P (pmap p f) Q'.
Proof.
  intros H HQ s Hs Hn Hp. unfold pmap. eapply R_bind; [apply H; auto|].
  intros s1 a Ha HQ1. apply R_ok; eauto using adv_refl, adv_sok.
Qed.

Lemma GP_palt {A} n P (p q : parser A) Q : GP n P p Q -> GP n P q Q -> GP n P (palt p q) Q.
Proof.
  intros Hp Hq s Hs Hn HP. specialize (Hp s Hs Hn HP). specialize (Hq s Hs Hn HP).
  unfold palt, R in *. destruct (p s); auto.
Qed.

Lemma GP_alt {A} n P (ps : list (parser A)) Q :
  Forall (fun p => GP n P p Q) ps -> GP n P (alt ps) Q.
Proof.
  induction 1; simpl; [intros s Hs Hn _; exact I | apply GP_palt; auto].
Qed.

Lemma GP_located_p {A} n P (p : parser A) Q :
  GP n P p Q -> GP n P (located_p p) (fun s s' x => l_reg x = reg s s' /\ Q s s' (l_val x)).
Proof.
  intros H s Hs Hn HP.
  (* reuse the unconditional lemma on the parser that only runs at [s] *)
  pose proof (G_located_p n (fun t => if span_eqb t s then p t else Err)
                (fun t t' a => t = s -> Q t t' a)) as HG.
  assert (E : forall t, span_eqb t s = true -> t = s).
  { intros t Ht. unfold span_eqb in Ht. apply andb_true_iff in Ht as [Ht E4].
    apply andb_true_iff in Ht as [Ht E3]. apply andb_true_iff in Ht as [E1 E2].
    apply Nat.eqb_eq in E1, E2, E3. apply str_eqb_eq in E4. destruct t, s; cbn in *. congruence. }
  assert (Es : span_eqb s s = true) by (unfold span_eqb; now rewrite !Nat.eqb_refl, str_eqb_refl).
  assert (HG' : G n (fun t => if span_eqb t s then p t else Err) (fun t t' a => t = s -> Q t t' a)).
  { intros t Ht Hnt. destruct (span_eqb t s) eqn:Et; [|exact I]. apply E in Et. subst t.
    eapply R_weaken; [apply H; auto|]. auto. }
  specialize (HG HG' s Hs Hn). unfold located_p, locate, capture in *. rewrite Es in HG.
  eapply R_weaken; [exact HG|]. cbv beta. intros s' x _ [K1 K2]. auto.
Qed.

Lemma GP_many0_fuel {A} n P (p : parser A) Q fuel s :
  GP n P p Q -> (forall s s' a, sok s -> P s -> adv s s' -> Q s s' a -> P s') ->
  sok s -> remaining_len s < n -> remaining_len s < fuel -> P s ->
  R s (many0_fuel fuel p s) (fun s' l => steps Q s l s' /\ p s' = Err /\ P s').
Proof.
  intros HG HP. revert s. induction fuel as [|f IH]; intros s Hs Hn Hf Hps; [lia|].
  simpl. pose proof (HG s Hs Hn Hps) as H. unfold R in H.
  destruct (p s) as [s1 a| | |] eqn:E; auto.
  - destruct H as [Ha HQ]. destruct (span_eqb s1 s) eqn:E1; [exact I|].
    pose proof (span_eqb_start _ _ Hs Ha E1) as Hlt.
    pose proof (adv_rl_lt _ _ Hs Ha Hlt). pose proof (adv_sok _ _ Hs Ha) as Hs1.
    assert (HR := IH s1 Hs1 ltac:(lia) ltac:(lia) ltac:(eauto)).
    unfold R in *. destruct (many0_fuel f p s1) as [s2 l| | |]; simpl; auto.
    destruct HR as [Hb [Hst He]]. split; [eapply adv_trans; eauto|].
    split; auto. econstructor; eauto.
  - apply R_ok; auto using adv_refl. split; auto. constructor.
Qed.

Lemma GP_many0 {A} n P (p : parser A) Q :
  GP n P p Q -> (forall s s' a, sok s -> P s -> adv s s' -> Q s s' a -> P s') ->
  GP n P (many0 p) (fun s s' l => steps Q s l s' /\ p s' = Err /\ P s').
Proof. intros H HP s Hs Hn Hp. unfold many0. eapply GP_many0_fuel; eauto. Qed.

Lemma GP_many1 {A} n P (p : parser A) Q :
  GP n P p Q -> (forall s s' a, sok s -> P s -> adv s s' -> Q s s' a -> P s') ->
  (forall s s' a, sok s -> adv s s' -> Q s s' a -> sp_start s < sp_start s') ->
  GP n P (many1 p) (fun s s' l => l <> [] /\ steps Q s l s' /\ p s' = Err /\ P s').
Proof.
  intros H HP Hlt s Hs Hn Hp. unfold many1. eapply R_bind; [apply H; auto|].
  intros s1 a Ha HQ1. pose proof (adv_sok _ _ Hs Ha) as Hs1. pose proof (adv_rl _ _ Hs Ha).
  eapply R_bind; [apply (GP_many0 n P p Q H HP); eauto; lia|].
  cbv beta. intros s2 l Hb (Hst & He & Hp2). apply R_ok; [eauto using adv_refl, adv_sok|].
  split; [discriminate|]. split; auto. econstructor; eauto.
Qed.

(** Progress at each step: [many0] cannot fail. *)
Lemma many0_not_err {A} n P (p : parser A) Q s :
  GP n P p Q -> (forall s s' a, sok s -> P s -> adv s s' -> Q s s' a -> P s') ->
  (forall s s' a, sok s -> adv s s' -> Q s s' a -> sp_start s < sp_start s') ->
  sok s -> remaining_len s < n -> P s -> many0 p s <> Err.
Proof.
  intros HG HP Hlt. unfold many0. generalize (S (remaining_len s)) as fuel. intro fuel.
  revert s. induction fuel as [|f IH]; intros s Hs Hn Hps; simpl; [discriminate|].
  pose proof (HG s Hs Hn Hps) as H. unfold R in H.
  destruct (p s) as [s1 a| | |] eqn:E; try discriminate.
  destruct H as [Ha HQ]. specialize (Hlt _ _ _ Hs Ha HQ).
  destruct (span_eqb s1 s) eqn:E1.
  - unfold span_eqb in E1. apply andb_true_iff in E1 as [E1 _]. apply andb_true_iff in E1 as [E1 _].
    apply andb_true_iff in E1 as [E1 _]. apply Nat.eqb_eq in E1. lia.
  - pose proof (adv_sok _ _ Hs Ha) as Hs1. pose proof (adv_rl _ _ Hs Ha).
    assert (HR := IH s1 Hs1 ltac:(lia) ltac:(eauto)).
    destruct (many0_fuel f p s1); simpl; congruence.
Qed.

Lemma GP_deeper {A} n P (p : parser A) Q :
  GP n P p Q ->
  GP n (fun s => P (with_deeper s)) (deeper p) (fun s s' a => Q (with_deeper s) (with_deeper s') a).
Proof.
  intros H s Hs Hn HP. unfold deeper.
  assert (Hd : sok (with_deeper s)) by (destruct Hs as (? & ? & ? & ? & ?); repeat split; auto).
  specialize (H (with_deeper s) Hd Hn HP). unfold R in *.
  destruct (p (with_deeper s)) as [s1 a| | |]; simpl; auto.
  destruct H as [(K1 & K2 & K3 & K4 & K5 & K6) HQ]. simpl in *.
  unfold with_deeper, with_shallower, with_depth in *. simpl.
  split.
  - repeat split; simpl; auto; lia.
  - destruct s1 as [i st e d]; simpl in *. subst d.
    replace (sp_depth s + 1 - 1) with (sp_depth s) by lia. exact HQ.
Qed.

(** * Elements that are not text *)

Section NonText.
Variable n : nat.
Variable dec : parser (located decorated).
Definition dq : decorated -> inline := fun d => IDeco (fst d) (snd d).
Hypothesis Hdec : G n dec (LQ dq).
Local Notation nt := (non_text_ uri_parse date_parse dec).

Lemma pchar_other c s b r : remaining s = b :: r -> b <> c -> pchar c s = Err.
Proof. intros H Hb. unfold pchar. rewrite H. apply beqb_neq in Hb. now rewrite Hb. Qed.

Lemma tag_other c t s b r : remaining s = b :: r -> b <> c -> tag (c :: t) s = Err.
Proof.
  intros H Hb. unfold tag. rewrite H. cbn [starts_with].
  destruct (beqb c b) eqn:E; auto. apply beqb_eq in E. congruence.
Qed.

Lemma preceded_err {A B} (p : parser A) (q : parser B) s : p s = Err -> preceded p q s = Err.
Proof. intro H. unfold preceded. now rewrite H. Qed.
Lemma peek_err {A} (p : parser A) s : p s = Err -> peek p s = Err.
Proof. intro H. unfold peek. now rewrite H. Qed.
Lemma pmap_err {A B} (p : parser A) (f : A -> B) s : p s = Err -> pmap p f s = Err.
Proof. intro H. unfold pmap. now rewrite H. Qed.
Lemma alt_all_err {A} (ps : list (parser A)) s :
  Forall (fun p => p s = Err) ps -> alt ps s = Err.
Proof. induction 1; simpl; auto. unfold palt. now rewrite H. Qed.
Lemma located_err {A} (p : parser A) s : p s = Err -> located_p p s = Err.
Proof. intro H. unfold located_p, locate, capture. now rewrite H. Qed.

(** At a non-ASCII byte nothing but text matches. *)
Lemma nt_non_ascii s b r : remaining s = b :: r -> is_ascii b = false -> nt s = Err.
Proof.
  intros Hr Hb. assert (Hne : forall c, is_ascii c = true -> b <> c) by (intros c Hc ->; congruence).
  unfold non_text_. apply alt_all_err.
  repeat (constructor; [try (apply pmap_err, preceded_err, peek_err;
                             eapply pchar_other; [eassumption | now apply Hne]) |]);
    [ | | | constructor].
  - apply pmap_err, preceded_err, peek_err. unfold palt.
    rewrite !(fun c H => pchar_other c s b r Hr (Hne c H)); reflexivity.
  - apply pmap_err, preceded_err, peek_err, alt_all_err.
    repeat (constructor; [eapply pchar_other; [eassumption | now apply Hne]|]). constructor.
  - apply pmap_err, located_err, alt_all_err.
    repeat (constructor; [unfold value; apply pmap_err;
                          eapply tag_other; [eassumption | now apply Hne]|]). constructor.
Qed.

(** The span at which the backtracking raw-link alternative looks. *)
Definition bt (s : span) : span :=
  backtrack_start_by (count_while (fun b => negb (is_ascii_ws b)) (rev (consumed s))) s.

Lemma firstn_rev_nth {A} (l : list A) k x :
  k < length l -> nth_error (rev l) k = Some x -> nth_error l (length l - 1 - k) = Some x.
Proof.
  intros Hk H. assert (Hr : nth_error (rev (rev l)) (length l - 1 - k) = Some x).
  { assert (D := x). rewrite (nth_error_nth' _ x) by (rewrite !rev_length; lia). f_equal.
    rewrite rev_nth by (rewrite rev_length; lia). rewrite rev_length.
    replace (length l - S (length l - 1 - k)) with k by lia.
    now apply nth_error_nth. }
  now rewrite rev_involutive in Hr.
Qed.

Lemma bt_spec s :
  sok s -> sok (bt s) /\ sp_start (bt s) <= sp_start s /\ sp_end (bt s) = sp_end s /\
  sp_depth (bt s) = sp_depth s /\ bow (sp_start (bt s)) /\
  Forall (fun b => is_ascii_ws b = false) (slice (sp_start (bt s)) (sp_start s) inner).
Proof.
  intro Hs. pose proof (consumed_length s Hs) as Hl.
  set (c := count_while (fun b => negb (is_ascii_ws b)) (rev (consumed s))).
  assert (Hc : c <= sp_start s).
  { rewrite <- Hl, <- rev_length. apply count_while_le. }
  assert (Hst : sp_start (bt s) = sp_start s - c).
  { unfold bt, backtrack_start_by. fold c. cbn [sp_start].
    destruct (sp_start s <? c) eqn:E; [apply Nat.ltb_lt in E; lia | reflexivity]. }
  assert (Hin : sp_inner s = inner) by apply Hs.
  assert (Hnth : forall k, k < sp_start s -> nth_error (consumed s) k = nth_error inner k).
  { intros k Hk. unfold consumed. rewrite Hin. now apply nth_error_firstn. }
  assert (Hbow : bow (sp_start (bt s))).
  { rewrite Hst. destruct (Nat.eq_dec c (sp_start s)) as [->|Hne]; [left; lia|].
    right. destruct (nth_error (rev (consumed s)) c) as [b|] eqn:E.
    - exists b. pose proof (count_while_stop _ _ _ E) as Hb. apply negb_false_iff in Hb. split; auto.
      apply firstn_rev_nth in E; [|lia]. rewrite Hnth in E by lia. rewrite Hl in E.
      now replace (sp_start s - c - 1) with (sp_start s - 1 - c) by lia.
    - apply nth_error_None in E. rewrite rev_length in E. lia. }
  split; [|split; [lia|]].
  - destruct Hs as (H1 & H2 & H3 & H4 & H5). repeat split; auto.
    + cbn [bt backtrack_start_by sp_end]. fold (bt s). rewrite Hst. cbn. lia.
    + destruct Hbow as [->|[b [Hb1 Hb2]]]; [apply e_bd_0|].
      destruct (sp_start (bt s)) as [|k] eqn:Ek; [apply e_bd_0|].
      eapply e_bd_after; [|apply is_ascii_ws_ascii; eauto].
      now replace (S k - 1) with k in Hb1 by lia.
  - split; auto. split; auto. split; auto.
    apply Forall_forall. intros b Hb. apply In_nth_error in Hb as [k Hk].
    assert (Hk2 : k < c).
    { assert (Hk3 : k < length (slice (sp_start (bt s)) (sp_start s) inner))
        by (apply nth_error_Some; congruence).
      rewrite slice_length in Hk3; [lia|]. destruct Hs as (_ & ? & ? & _). lia. }
    rewrite Hst in Hk. rewrite nth_error_slice in Hk by lia.
    destruct (count_while_nth (fun b => negb (is_ascii_ws b)) (rev (consumed s)) (c - 1 - k))
      as [x [X1 X2]]; [fold c; lia|].
    apply firstn_rev_nth in X1; [|lia]. rewrite Hnth in X1 by lia. rewrite Hl in X1.
    replace (sp_start s - 1 - (c - 1 - k)) with (sp_start s - c + k) in X1 by lia.
    rewrite X1 in Hk. injection Hk as ->. now apply negb_true_iff in X2.
Qed.

Lemma bt_same s : sok s -> sp_start (bt s) = sp_start s -> bt s = s.
Proof. intros Hs H. destruct (bt_spec s Hs) as (H1 & _ & H2 & H3 & _). now apply sok_ext. Qed.

(** What a non-text element is: it starts here, or it is a raw link that began
    earlier in the word. *)
Definition ntq (s s' : span) (x : located inline) : Prop :=
  r_off (l_reg x) = sp_start s \/
  (r_off (l_reg x) = sp_start (bt s) /\ nth_error inner (sp_start s) = Some x3a /\
   exists s2 y, raw_link uri_parse (bt s) = Ok s2 y).

Lemma preceded_peek {A B} (p : parser A) (q : parser B) s :
  preceded (peek p) q s = match p s with
                          | Ok _ _ => q s
                          | Err => Err | Panic => Panic | OutOfFuel => OutOfFuel
                          end.
Proof. unfold preceded, peek. destruct (p s); reflexivity. Qed.

(** Results without the "advances" part (the backtracking parser does not
    advance). *)
Definition W {A} (r : res A) (Q : span -> A -> Prop) : Prop :=
  match r with Ok s a => Q s a | Err => True | Panic => pan | OutOfFuel => False end.

Lemma W_of_R {A} s (r : res A) (Q : span -> A -> Prop) : R s r Q -> W r Q.
Proof. unfold R, W. destruct r; tauto. Qed.

Lemma W_alt {A} (ps : list (parser A)) s Q :
  Forall (fun p => W (p s) Q) ps -> W (alt ps s) Q.
Proof.
  induction 1; simpl; [exact I|]. unfold palt. unfold W in *. destruct (x s); auto.
Qed.

Lemma W_LQ {A B} (p : parser (located A)) (q : parser B) (f : A -> inline) s :
  sok s -> remaining_len s < n -> G n p (LQ f) -> G n q (fun _ _ _ => True) ->
  W (pmap (preceded (peek q) p) (lmap f) s) (ntq s).
Proof.
  intros Hs Hn Hp Hq. specialize (Hp s Hs Hn). specialize (Hq s Hs Hn).
  unfold pmap. rewrite preceded_peek. unfold R in *. destruct (q s); cbn; auto.
  destruct (p s) as [s1 x| | |]; cbn; auto. left. destruct Hp as [_ (Hr & _)]. cbn [lmap l_reg]. now rewrite Hr.
Qed.

Lemma G_pchar_T c : is_ascii c = true -> G n (pchar c) (fun _ _ _ => True).
Proof. intro H. eapply G_weaken; [apply G_pchar; auto|]. auto. Qed.

Lemma nt_W s : sok s -> remaining_len s < n -> W (nt s) (ntq s).
Proof.
  intros Hs Hn. unfold non_text_. apply W_alt. repeat constructor.
  - apply W_LQ; auto using G_p_comment, G_pchar_T.
  - apply W_LQ; auto using G_code_inline, G_pchar_T.
  - apply W_LQ; auto using G_math_inline, G_pchar_T.
  - apply W_LQ; auto using G_tags, G_pchar_T.
  - apply W_LQ; auto using G_p_link, G_pchar_T. apply G_palt; auto using G_pchar_T.
  - apply (W_LQ dec _ dq); auto. apply G_alt. repeat constructor; auto using G_pchar_T.
  - pose proof (G_p_keyword n s Hs Hn) as H. unfold pmap, R in *.
    destruct (p_keyword s) as [s1 x| | |]; cbn; auto. left. destruct H as [_ (Hr & _)]. cbn [lmap l_reg]. now rewrite Hr.
  - unfold raw_link_backtrack, pmap. rewrite preceded_peek. fold (bt s).
    unfold pchar. destruct (remaining s) as [|b r] eqn:Er; cbn; auto.
    destruct (beqb b x3a) eqn:Eb; cbn; auto. apply beqb_eq in Eb. subst b.
    destruct (bt_spec s Hs) as (H1 & H2 & H3 & H4 & H5 & H6).
    pose proof (G_raw_link (S (remaining_len (bt s))) (bt s) H1 ltac:(lia)) as H. unfold R in H.
    destruct (raw_link uri_parse (bt s)) as [s1 x| | |] eqn:E; cbn; auto.
    right. destruct H as [_ (Hr & _)]. cbn [lmap l_reg]. rewrite Hr. cbn. split; auto.
    split; [now destruct (remaining_cons _ _ _ Hs Er)|]. eauto.
Qed.

(** * The loop of [text] *)

(** Why text stops. *)
Definition stopq (s' : span) : Prop :=
  remaining s' = [] \/ at_eol (remaining s') 0 \/
  (exists s2 x, nt s' = Ok s2 x /\ sp_start s' <= r_off (l_reg x)) \/
  (bow (sp_start s') /\ exists s2 x, raw_link uri_parse s' = Ok s2 x).

(** When text may be tried. *)
Definition Pt (s : span) : Prop :=
  edge s \/ exists s2 x, nt s = Ok s2 x /\ sp_start s <= r_off (l_reg x).

Lemma stopq_Pt s : sok s -> stopq s -> Pt s.
Proof.
  intros Hs [H|[H|[H|[H _]]]].
  - left. apply edge_none; auto. unfold next. now rewrite H.
  - left. destruct H as [H|[H _]]; (eapply edge_next; [auto | exact H | reflexivity]).
  - now right.
  - left. right. destruct H as [->|H]; [now left | right; now left].
Qed.

Definition at_len (s : span) (len : nat) : span :=
  Span inner (sp_start s + len) (sp_end s) (sp_depth s).

Lemma at_len_0 s : sok s -> at_len s 0 = s.
Proof. intros (H & _). unfold at_len. destruct s; cbn in *. rewrite Nat.add_0_r. congruence. Qed.

Lemma eol_cond b r :
  is_nl b || (beqb b b_cr && starts_with nl_str r) = true <-> at_eol (b :: r) 0.
Proof.
  unfold at_eol. cbn [nth_error]. rewrite orb_true_iff, andb_true_iff. unfold is_nl.
  rewrite !beqb_eq. unfold nl_str. split.
  - intros [->|[-> H]]; auto. right. split; auto.
    destruct r as [|c r']; [discriminate|]. cbn [starts_with] in H. rewrite andb_true_r in H.
    apply beqb_eq in H. now subst c.
  - intros [H|[H1 H2]]; [left; congruence|]. right. split; [congruence|].
    destruct r as [|c r']; [discriminate|]. cbn [nth_error] in H2. injection H2 as ->. reflexivity.
Qed.

Lemma word_len_ge l k c :
  nth_error l k = Some c -> c = x3a ->
  Forall (fun b => is_ascii_ws b = false) (firstn k l) -> k < word_len l.
Proof.
  revert k. induction l as [|b r IH]; intros k Hk Hc HF; [destruct k; discriminate|].
  cbn [word_len].
  assert (E : is_space b || is_nl b || (beqb b b_cr && starts_with nl_str r) = false).
  { assert (Hb : is_ascii_ws b = false).
    { destruct k; [cbn in Hk; injection Hk as ->; subst c; reflexivity | now inversion HF]. }
    destruct (is_space b) eqn:E1; [apply is_space_ws in E1; congruence|].
    unfold is_nl. destruct (beqb b b_nl) eqn:E2; [apply beqb_eq in E2; subst b; discriminate|].
    destruct (beqb b b_cr) eqn:E3; [apply beqb_eq in E3; subst b; discriminate|]. reflexivity. }
  rewrite E. destruct k as [|k]; [lia|]. cbn in Hk. inversion HF; subst.
  specialize (IH k Hk eq_refl H2). lia.
Qed.

Lemma text_loop_spec fuel s len :
  sok s -> remaining_len s < n -> Pt s ->
  len <= remaining_len s -> remaining_len s - len < fuel ->
  no_nl (slice (sp_start s) (sp_start s + len) inner) ->
  (0 < len -> nt s = Err) ->
  match text_loop fuel nt (at_len s len) len with
  | Ok _ m => m <= remaining_len s /\ bd (sp_start s + m) /\ stopq (at_len s m) /\
              no_nl (slice (sp_start s) (sp_start s + m) inner)
  | Err => False
  | Panic => pan
  | OutOfFuel => False
  end.
Proof.
  intros Hs Hn HP. revert len. induction fuel as [|f IH]; intros len Hle Hf Hnl Hfirst; [lia|].
  cbn [text_loop]. rewrite rl_eq in * by auto.
  assert (Hend : sp_end s <= length inner) by apply Hs.
  assert (Hse : sp_start s <= sp_end s) by apply Hs.
  destruct (remaining (at_len s len)) as [|b r] eqn:Er.
  { (* end of input *)
    assert (El : sp_start s + len = sp_end s).
    { apply (f_equal (@length _)) in Er. unfold remaining in Er. cbn [at_len sp_start sp_end sp_inner] in Er.
      rewrite slice_length in Er by auto. cbn in Er. lia. }
    split; [lia|]. split; [rewrite El; apply Hs|]. split; auto. now left. }
  pose proof Er as Er'. unfold remaining in Er'. cbn [at_len sp_start sp_end sp_inner] in Er'. apply slice_cons in Er' as (B1 & B2 & B3).
  destruct (is_nl b || (beqb b b_cr && starts_with nl_str r)) eqn:Eeol.
  { (* end of line *)
    pose proof (proj1 (eol_cond b r) Eeol) as He.
    assert (Hb : is_ascii b = true).
    { apply orb_true_iff in Eeol as [E|E].
      - apply beqb_eq in E. now subst b.
      - apply andb_true_iff in E as [E _]. apply beqb_eq in E. now subst b. }
    split; [lia|]. split; [eapply e_bd_at; eauto|]. split; auto. right. left. now rewrite Er. }
  assert (Hbn : b <> b_nl).
  { intros ->. discriminate. }
  destruct (is_ascii b) eqn:Ea.
  - (* the span is well formed here *)
    assert (Hsl : sok (at_len s len)).
    { destruct Hs as (S1 & S2 & S3 & S4 & S5). repeat split; cbn; auto; try lia.
      eapply e_bd_at; eauto. }
    assert (Hnl' : remaining_len (at_len s len) < n) by (rewrite rl_eq by auto; cbn; lia).
    pose proof (nt_W _ Hsl Hnl') as HW. unfold W in HW.
    destruct (nt (at_len s len)) as [s2 x| | |] eqn:Ent; auto.
    + destruct (r_off (l_reg x) <? sp_start (at_len s len)) eqn:Elt.
      * (* a raw link that began earlier *)
        apply Nat.ltb_lt in Elt. cbn [sp_start at_len] in *.
        destruct HW as [HW|(HW & Hcol & s3 & y & Hraw)]; [cbn in HW; lia|].
        destruct (bt_spec _ Hsl) as (T1 & T2 & T3 & T4 & T5 & T6). cbn [sp_start sp_end sp_depth at_len] in *.
        assert (Hse2 : sp_start (bt (at_len s len)) = r_off (l_reg x)) by lia.
        destruct (len <? sp_start s + len - r_off (l_reg x)) eqn:Epan.
        -- (* text began after the link did *)
           apply Nat.ltb_lt in Epan.
           assert (Hlt : sp_start (bt (at_len s len)) < sp_start s) by lia.
           pose proof (G_raw_link (S (remaining_len (bt (at_len s len)))) _ T1 ltac:(lia)) as Hrw.
           unfold R in Hrw. rewrite Hraw in Hrw. destruct Hrw as [Hadv (_ & _ & Hwl & _ & u & _ & U1 & U2 & U3)].
           assert (Hseam : seam (sp_start s)).
           { destruct HP as [[HP|HP]|HP]; [lia | exact HP |]. exfalso.
             destruct HP as (s4 & z & Hz1 & Hz2).
             destruct (Nat.eq_dec len 0) as [->|].
             - rewrite at_len_0 in Ent by auto. rewrite Ent in Hz1. injection Hz1 as <- <-. lia.
             - rewrite (Hfirst ltac:(lia)) in Hz1. discriminate. }
           set (i := sp_start (bt (at_len s len))) in *.
           assert (Hws : forall t b', i <= t -> t <= sp_start s + len -> nth_error inner t = Some b' ->
                          is_ascii_ws b' = false).
           { intros t b' Ht1 Ht2 Hb'. destruct (Nat.eq_dec t (sp_start s + len)) as [->|].
             - rewrite Hcol in Hb'. injection Hb' as <-. reflexivity.
             - rewrite Forall_forall in T6. apply T6. eapply nth_error_In with (n := t - i).
               rewrite nth_error_slice by lia. now replace (i + (t - i)) with t by lia. }
           apply (e_pan_text EV i (sp_start s) (sp_start s + len) (sp_start s3) u); auto; try lia.
           ++ destruct Hseam as [Hz|[[b' [Hb1 Hb2]]|[[b' [Hb1 Hb2]]|Hc]]]; [lia | | | exact Hc].
              ** rewrite (Hws (sp_start s - 1) b') in Hb2; [discriminate | lia | lia | auto].
              ** rewrite (Hws (sp_start s) b') in Hb2; [discriminate | lia | lia | auto].
           ++ rewrite Hwl. fold i.
              enough (sp_start s + len - i < word_len (remaining (bt (at_len s len)))) by lia.
              apply (word_len_ge _ _ x3a); auto.
              ** rewrite remaining_eq by auto. fold i. rewrite T3.
                 rewrite nth_error_slice by lia.
                 now replace (i + (sp_start s + len - i)) with (sp_start s + len) by lia.
              ** rewrite firstn_remaining by (auto; rewrite rl_eq by auto; fold i; rewrite T3; lia).
                 fold i. replace (i + (sp_start s + len - i)) with (sp_start s + len) by lia. exact T6.
        -- apply Nat.ltb_ge in Epan.
           replace (len - (sp_start s + len - r_off (l_reg x)))
             with (sp_start (bt (at_len s len)) - sp_start s) by lia.
           set (i := sp_start (bt (at_len s len))) in *.
           assert (Ebt : at_len s (i - sp_start s) = bt (at_len s len)).
           { unfold at_len at 1. replace (sp_start s + (i - sp_start s)) with i by lia.
             destruct (bt (at_len s len)) as [bi bs' be bd'] eqn:Eb. cbn in *. destruct T1 as (T1 & _).
             cbn in T1. subst i. congruence. }
           split; [lia|]. split.
           ++ replace (sp_start s + (i - sp_start s)) with i by lia. apply T1.
           ++ split.
              ** right. right. right. rewrite Ebt. fold i. split; auto. eauto.
              ** intro Hin. apply Hnl. eapply slice_sub_in; [| |exact Hin]; lia.
      * apply Nat.ltb_ge in Elt. split; [lia|]. split; [eapply e_bd_at; eauto|]. split; auto.
        right. right. left. eauto.
    + (* one more byte *)
      assert (Eadv : advance_start_by 1 (at_len s len) = at_len s (len + 1)).
      { rewrite advance_start_eq by (auto; rewrite rl_eq by auto; cbn; lia).
        unfold at_len. cbn. f_equal. lia. }
      rewrite Eadv. apply IH; try lia.
      * rewrite (slice_app _ (sp_start s + len)) by lia. intro Hin. apply in_app_or in Hin as [Hin|Hin].
        -- now apply Hnl.
        -- apply In_nth_error in Hin as [k Hk].
           assert (k < length (slice (sp_start s + len) (sp_start s + (len + 1)) inner))
             by (apply nth_error_Some; congruence).
           rewrite slice_length in * by lia. assert (k = 0) by lia. subst k.
           rewrite nth_error_slice in Hk by lia. rewrite Nat.add_0_r in Hk. congruence.
      * intros _. destruct (Nat.eq_dec len 0) as [->|]; [|apply Hfirst; lia].
        now rewrite at_len_0 in Ent.
  - (* a byte of a multi-byte character *)
    rewrite (nt_non_ascii _ _ _ Er Ea).
    assert (Eadv : advance_start_by 1 (at_len s len) = at_len s (len + 1)).
    { unfold advance_start_by, at_len. cbn [sp_start sp_end sp_inner sp_depth].
      replace (sp_end s <? sp_start s + len + 1) with false by (symmetry; apply Nat.ltb_ge; lia).
      f_equal. lia. }
    rewrite Eadv. apply IH; try lia.
    + rewrite (slice_app _ (sp_start s + len)) by lia. intro Hin. apply in_app_or in Hin as [Hin|Hin].
      * now apply Hnl.
      * apply In_nth_error in Hin as [k Hk].
        assert (k < length (slice (sp_start s + len) (sp_start s + (len + 1)) inner))
          by (apply nth_error_Some; congruence).
        rewrite slice_length in * by lia. assert (k = 0) by lia. subst k.
        rewrite nth_error_slice in Hk by lia. rewrite Nat.add_0_r in Hk. congruence.
    + intros _. destruct (Nat.eq_dec len 0) as [->|]; [|apply Hfirst; lia].
      rewrite at_len_0 in Er by auto. eapply nt_non_ascii; eauto.
Qed.

(** * The text parser *)

Definition textq (s s' : span) (x : located str) : Prop :=
  l_reg x = reg s s' /\ sp_start s < sp_start s' /\
  l_val x = txt s s' /\ no_nl (l_val x) /\ stopq s'.

Lemma GP_text : GP n Pt (text_ nt) textq.
Proof.
  unfold text_. eapply GP_weaken; [apply (GP_located_p n Pt _ (fun s s' t =>
     sp_start s < sp_start s' /\ t = txt s s' /\ no_nl t /\ stopq s')) | auto |].
  2: { intros s s' x _ _ _ [H1 [H2 H3]]. split; auto. }
  intros s Hs Hn HP.
  pose proof (text_loop_spec (S (remaining_len s)) s 0 Hs Hn HP ltac:(lia) ltac:(lia)) as H.
  rewrite Nat.add_0_r in H. rewrite slice_nil in H by lia.
  specialize (H (fun H => H) ltac:(lia)). rewrite at_len_0 in H by auto.
  destruct (text_loop (S (remaining_len s)) nt s 0) as [s1 m| | |]; cbn [bind]; auto; [|contradiction].
  destruct H as (H1 & H2 & H3 & H4). destruct (0 <? m) eqn:E; [|exact I]. apply Nat.ltb_lt in E.
  rewrite advance_start_eq by auto. fold (at_len s m).
  assert (Ha : adv s (at_len s m)) by (apply adv_advance; auto).
  apply R_ok; auto. cbn [sp_start at_len]. split; [lia|].
  assert (Et : remaining (with_length m s) = txt s (at_len s m)).
  { rewrite rl_eq in H1 by auto. unfold with_length. rewrite rl_eq by auto.
    destruct Hs as (S1 & S2 & _). destruct (m <? sp_end s - sp_start s) eqn:Em;
      unfold remaining, txt; cbn [sp_start sp_end sp_inner at_len]; rewrite S1; auto.
    apply Nat.ltb_ge in Em. f_equal. lia. }
  rewrite Et. unfold txt. cbn. auto.
Qed.

Lemma text_err s : sok s -> remaining_len s < n -> Pt s -> text_ nt s = Err -> stopq s.
Proof.
  intros Hs Hn HP He.
  pose proof (text_loop_spec (S (remaining_len s)) s 0 Hs Hn HP ltac:(lia) ltac:(lia)) as H.
  rewrite Nat.add_0_r in H. rewrite slice_nil in H by lia.
  specialize (H (fun H => H) ltac:(lia)). rewrite at_len_0 in H by auto.
  unfold text_, located_p, locate, capture in He.
  destruct (text_loop (S (remaining_len s)) nt s 0) as [s1 m| | |]; cbn [bind] in He;
    try discriminate; [|contradiction].
  destruct H as (H1 & H2 & H3 & H4). destruct (0 <? m) eqn:E.
  - exfalso. rewrite advance_start_eq in He by auto. cbn [sp_start bind] in He.
    replace (sp_start s + m <? sp_start s) with false in He by (symmetry; apply Nat.ltb_ge; lia).
    discriminate.
  - apply Nat.ltb_ge in E. replace m with 0 in H3 by lia. now rewrite at_len_0 in H3.
Qed.

(** If no other parser applies at [s], [nt] fails or backtracks. *)
Lemma nt_ok_inv s s2 x :
  sok s -> remaining_len s < n -> nt s = Ok s2 x -> sp_start s <= r_off (l_reg x) ->
  p_comment s = Err -> code_inline s = Err -> math_inline s = Err -> tags s = Err ->
  p_link uri_parse date_parse s = Err -> dec s = Err -> p_keyword s = Err -> False.
Proof.
  intros Hs Hn H Hge E1 E2 E3 E4 E5 E6 E7.
  assert (Hraw : raw_link uri_parse s = Err).
  { unfold p_link in E5. apply alt_err in E5. inversion_clear E5 as [|? ? _ E]. inversion_clear E as [|? ? _ E'].
    inversion_clear E' as [|? ? _ E]. inversion_clear E as [|? ? _ E']. now inversion_clear E'. }
  assert (Hpp : forall {A B} (q : parser A) (p : parser B), p s = Err -> preceded (peek q) p s = Err \/
             preceded (peek q) p s = Panic \/ preceded (peek q) p s = OutOfFuel).
  { intros A B q p Hp. rewrite preceded_peek. destruct (q s); auto. }
  unfold non_text_ in H. cbn [alt] in H. unfold palt in H.
  repeat match type of H with
  | match pmap (preceded (peek ?q) ?p) ?f s with _ => _ end = _ =>
      let K := fresh in
      assert (K := Hpp _ _ q p ltac:(assumption)); unfold pmap in H at 1;
      destruct K as [K|[K|K]]; rewrite K in H; cbn [bind] in H; try discriminate H
  end.
  rewrite (pmap_err _ _ _ E7) in H. unfold raw_link_backtrack, pmap in H.
  rewrite preceded_peek in H. fold (bt s) in H.
  destruct (pchar x3a s); cbn [bind] in H; try discriminate.
  destruct (bt_spec s Hs) as (T1 & T2 & T3 & T4 & T5 & T6).
  pose proof (G_raw_link (S (remaining_len (bt s))) _ T1 ltac:(lia)) as Hrw. unfold R in Hrw.
  destruct (raw_link uri_parse (bt s)) as [s3 y| | |] eqn:Er; cbn [bind] in H; try discriminate.
  injection H as <- <-. cbn [lmap l_reg] in Hge. destruct Hrw as [_ (Hreg & _)].
  rewrite Hreg in Hge. cbn [reg r_off] in Hge. rewrite (bt_same s Hs) in Er by lia. congruence.
Qed.

End NonText.

(** * Decorated text *)

Definition dcq (nt : parser (located inline)) (s s' : span) (x : located dcontent) : Prop :=
  l_reg x = reg s s' /\ sp_start s < sp_start s' /\
  dcok (sp_depth s) (sp_start s) (sp_start s') (l_val x) /\
  (edge s' \/ exists s2 y, nt s' = Ok s2 y /\ sp_start s' <= r_off (l_reg y)).

(** From the steps of a loop to a layout. *)
Lemma steps_chain {A} (P : nat -> nat -> A -> Prop) (fin : nat -> nat -> Prop)
      (Q : span -> span -> located A -> Prop) s l s' hi :
  (forall s s' x, Q s s' x -> l_reg x = reg s s' /\ P (sp_start s) (sp_start s') (l_val x)) ->
  fin (sp_start s') hi -> sok s -> steps Q s l s' ->
  chain bd exact fin P (sp_depth s) (sp_start s) l hi.
Proof.
  intros HQ Hfin Hs H. induction H as [s|s s1 s2 a l Hs0 Ha Hlt Hq Hst IH]; cbn [chain]; auto.
  destruct (HQ _ _ _ Hq) as [Hr HP]. rewrite Hr. cbn [r_off r_len r_depth reg].
  replace (sp_start s + (sp_start s1 - sp_start s)) with (sp_start s1) by lia.
  assert (Hd : sp_depth s1 = sp_depth s) by apply Ha. rewrite Hd in IH.
  repeat split; eauto using sok_bd, adv_bd; try lia. apply IH; auto. eauto using adv_sok.
Qed.

Lemma steps_chain_depth {A} (P : nat -> nat -> nat -> A -> Prop) (fin : nat -> nat -> Prop)
      (Q : span -> span -> located A -> Prop) s l s' hi :
  (forall s s' x, Q s s' x -> l_reg x = reg s s' /\ P (sp_depth s) (sp_start s) (sp_start s') (l_val x)) ->
  fin (sp_start s') hi -> sok s -> steps Q s l s' ->
  chain bd exact fin (P (sp_depth s)) (sp_depth s) (sp_start s) l hi.
Proof.
  intros HQ Hfin Hs H.
  apply (steps_chain (P (sp_depth s)) fin
           (fun t t' x => Q t t' x /\ sp_depth t = sp_depth s) s l s'); auto.
  - intros t t' x [Hq <-]. auto.
  - revert Hs. remember (sp_depth s) as d eqn:Hd. intro Hs. symmetry in Hd.
    clear Hfin. induction H as [s|s s1 s2 a l Hs0 Ha Hlt Hq Hst IH]; [constructor|].
    econstructor; eauto. apply IH; eauto using adv_sok.
    destruct Ha as (_ & _ & -> & _). exact Hd.
Qed.

Lemma GP_dcontents n dec :
  G n dec (LQ dq) ->
  GP n (Pt dec) (decorated_text_contents_ uri_parse date_parse dec)
    (fun s s' l => l <> [] /\ steps (dcq (non_text_ uri_parse date_parse dec)) s l s').
Proof.
  intro Hdec. unfold decorated_text_contents_.
  assert (HG : GP n (Pt dec)
    (alt [ pmap (p_link uri_parse date_parse) (lmap DCLink);
           pmap p_keyword (lmap DCKeyword);
           pmap dec (lmap (fun d => DCDeco (fst d) (snd d)));
           pmap (text_ (non_text_ uri_parse date_parse dec)) (lmap DCText) ])
    (dcq (non_text_ uri_parse date_parse dec))).
  { apply GP_alt. repeat constructor.
    - apply GP_of_G. eapply G_pmap; [apply G_p_link|]. cbv beta.
      intros s s' x Hs Ha (H1 & H2 & H3 & H4). split; [|split; [|split]]; auto.
    - apply GP_of_G. eapply G_pmap; [apply G_p_keyword|]. cbv beta.
      intros s s' x Hs Ha (H1 & H2 & H3 & H4). split; [|split; [|split]]; auto.
    - apply GP_of_G. eapply G_pmap; [apply Hdec|]. cbv beta.
      intros s s' x Hs Ha (H1 & H2 & H3 & H4). split; [|split; [|split]]; auto.
    - eapply GP_pmap; [apply (GP_text n dec Hdec)|]. cbv beta.
      intros s s' x Hs HP Ha (H1 & H2 & H3 & H4 & H5). split; [|split; [|split]]; auto.
      + cbn. auto.
      + apply stopq_Pt in H5; eauto using adv_sok. }
  eapply GP_weaken; [eapply (GP_many1 n (Pt dec)); [exact HG| |] | auto |].
  - intros s s' a Hs HP Ha (_ & _ & _ & H). exact H.
  - intros s s' a Hs Ha (_ & H & _). exact H.
  - cbv beta. intros s s' l Hs HP Ha (H1 & H2 & _). auto.
Qed.

Lemma dcq_chain nt s l s' hi :
  sok s -> steps (dcq nt) s l s' -> sp_start s' <= hi ->
  chain bd exact before (dcok (sp_depth s)) (sp_depth s) (sp_start s) l hi.
Proof.
  intros Hs H Hle. eapply (steps_chain_depth dcok before); eauto.
  intros t t' x (H1 & H2 & H3 & _). auto.
Qed.

Lemma G_deco_text n k dec :
  G n dec (LQ dq) ->
  G (S n) (deco_text uri_parse date_parse k (delim_of k) dec)
    (fun s s' d => sp_start s < sp_start s' /\
       iok (sp_depth s) (sp_start s) (sp_start s') (dq d) /\ edge s').
Proof.
  intro Hdec. unfold deco_text.
  assert (Hasc : ascii_str (delim_of k)) by (destruct k; asc_lit).
  assert (Hlen : 0 < length (delim_of k)) by (destruct k; cbn; lia).
  assert (Hlast : exists r b, delim_of k = r ++ [b] /\ seam_byte b = true).
  { destruct k; [exists [], x2a | exists [], x5f | exists (bs "~"), x7e | exists [], x5e
                 | exists (bs ","), x2c]; split; reflexivity. }
  eapply (G_pmap (S n) _ _ (fun s s' cs => sp_start s < sp_start s' /\
       iok (sp_depth s) (sp_start s) (sp_start s') (IDeco k cs) /\ edge s')); [|auto].
  eapply G_map_parser; [apply (G_surround (S n) (delim_of k) (delim_of k)); auto;
                        intro E; rewrite E in Hlen; cbn in Hlen; lia|].
  intros s s1 o Hs Hn Ha Hsurr. split; [apply Hsurr|].
  assert (Ho : sok o) by apply Hsurr.
  assert (Hrl : remaining_len o < n).
  { pose proof (surr_rl _ _ _ _ _ Hs Ha Hlen Hsurr). lia. }
  assert (Hed : edge o).
  { destruct Hlast as (r & b & El & Hb). right. right. right. right. left. exists b. split; auto.
    destruct Hsurr as ((Hsl & _) & _ & _ & Hst & _). rewrite Hst.
    rewrite El, app_length in *. cbn in *.
    assert (E : nth_error (slice (sp_start s) (sp_start s1) inner) (length r) = Some b).
    { rewrite Hsl, <- app_assoc, nth_error_app2, Nat.sub_diag by lia. reflexivity. }
    rewrite nth_error_slice in E.
    - now replace (sp_start s + (length r + 1) - 1) with (sp_start s + length r) by lia.
    - assert (length r < length (slice (sp_start s) (sp_start s1) inner))
        by (apply nth_error_Some; congruence).
      destruct Ha as (_ & _ & _ & ? & ? & _). destruct Hs as (_ & _ & ? & _).
      rewrite slice_length in * by lia. lia. }
  pose proof (GP_deeper n _ _ _ (GP_dcontents n dec Hdec) o Ho Hrl) as H. cbv beta in H.
  eapply R_weaken; [apply H|].
  - left. exact Hed.
  - cbv beta. intros o1 cs Ho1 [Hne Hst]. split; [|split].
    + exact (surr_lt _ _ _ _ _ Hs Ha Hsurr Hlen).
    + cbn [inline_ok dc_ok]. split; [eexists; apply Hsurr|]. split; auto.
      assert (Hd : sok (with_deeper o)) by (destruct Ho as (? & ? & ? & ? & ?); repeat split; auto).
      pose proof (dcq_chain _ _ _ _ (sp_end o) Hd Hst) as Hch.
      destruct Hsurr as (_ & _ & D1 & D2 & D3).
      cbn [with_deeper with_depth sp_start sp_depth] in Hch. rewrite D1, D2 in Hch.
      replace (sp_depth s + 1) with (S (sp_depth s)) in Hch by lia.
      replace (sp_start s1 - length (delim_of k)) with (sp_end o) by lia.
      apply Hch. destruct Ho1 as (_ & _ & _ & _ & ? & _). lia.
    + destruct Hlast as (r & b & El & Hb). rewrite El in Hsurr.
      exact (surr_edge _ _ _ _ _ _ Hs Ha Hsurr Hb).
Qed.

Lemma G_decorated f : G f (decorated_text uri_parse date_parse f) (LQ dq).
Proof.
  induction f as [|f IH]; intros s Hs Hn; [lia|]. cbn [decorated_text]. revert s Hs Hn.
  apply G_LQ. apply G_alt. repeat constructor.
  - apply (G_deco_text f Bold); auto.
  - apply (G_deco_text f Italic); auto.
  - apply (G_deco_text f Strikeout); auto.
  - apply (G_deco_text f Superscript); auto.
  - apply (G_deco_text f Subscript); auto.
Qed.

Lemma G_p_decorated n : G n (p_decorated uri_parse date_parse) (LQ dq).
Proof. intros s Hs Hn. unfold p_decorated. apply G_decorated; auto. Qed.

(** * Inline elements and containers *)

Local Notation pdec := (p_decorated uri_parse date_parse).
Local Notation ntp := (non_text uri_parse date_parse).

Definition inq (s s' : span) (x : located inline) : Prop :=
  l_reg x = reg s s' /\ sp_start s < sp_start s' /\
  iok (sp_depth s) (sp_start s) (sp_start s') (l_val x) /\ Pt pdec s' /\ stops_line s' (l_val x).

Lemma LQ_inq {A} (f : A -> inline) s s' x :
  LQ f s s' x -> stops_line s' (f (l_val x)) -> inq s s' (lmap f x).
Proof. intros (H1 & H2 & H3 & H4) H5. split; [|split; [|split; [|split]]]; auto. now left. Qed.

Lemma GP_inline_element n :
  GP n (Pt pdec) (inline_element uri_parse date_parse) inq.
Proof.
  unfold inline_element. apply GP_alt.
  assert (H : forall A (p : parser (located A)) (f : A -> inline),
     (forall x t, f x <> IComment (CLine t)) -> G n p (LQ f) -> GP n (Pt pdec) (pmap p (lmap f)) inq).
  { intros A p f Hf Hp. apply GP_of_G. eapply G_pmap; [exact Hp|]. intros. apply LQ_inq; auto.
    intros t E. now apply Hf in E. }
  constructor.
  { apply GP_of_G. eapply G_pmap; [apply G_p_comment_stop|]. cbv beta. intros s s' x _ _ [K1 K2]. now apply LQ_inq. }
  constructor; [apply H, G_math_inline; discriminate|].
  constructor; [apply H, G_code_inline; discriminate|]. constructor; [apply H, G_tags; discriminate|].
  constructor; [apply H, G_p_link; discriminate|]. constructor; [apply (H _ _ dq), G_p_decorated; discriminate|].
  constructor; [apply H, G_p_keyword; discriminate|]. constructor; [|constructor].
  eapply GP_pmap; [apply (GP_text n pdec (G_p_decorated n))|]. cbv beta.
  intros s s' x Hs HP Ha (H1 & H2 & H3 & H4 & H5). split; [|split; [|split; [|split]]]; auto.
  - cbn. auto.
  - apply stopq_Pt in H5; eauto using adv_sok.
  - intros t E. discriminate.
Qed.

(** Something inline is found everywhere but at the end of a line. *)
Lemma pmap_err_inv {A B} (p : parser A) (f : A -> B) s : pmap p f s = Err -> p s = Err.
Proof. unfold pmap. destruct (p s); cbn; congruence. Qed.

Lemma inline_total s :
  sok s -> Pt pdec s -> inline_element uri_parse date_parse s = Err ->
  remaining s = [] \/ at_eol (remaining s) 0.
Proof.
  intros Hs HP H. unfold inline_element in H. apply alt_err in H.
  inversion_clear H as [|? ? E1 H']. inversion_clear H' as [|? ? E2 H].
  inversion_clear H as [|? ? E3 H']. inversion_clear H' as [|? ? E4 H].
  inversion_clear H as [|? ? E5 H']. inversion_clear H' as [|? ? E6 H].
  inversion_clear H as [|? ? E7 H']. inversion_clear H' as [|? ? E8 H].
  apply pmap_err_inv in E1, E2, E3, E4, E5, E6, E7, E8.
  pose proof (text_err (S (remaining_len s)) pdec (G_p_decorated _) s Hs ltac:(lia) HP E8)
    as [K|[K|[K|[_ K]]]]; auto; exfalso.
  - destruct K as (s2 & x & K1 & K2).
    eapply (nt_ok_inv (S (remaining_len s)) pdec); eauto.
  - destruct K as (s2 & x & K). unfold p_link in E5. apply alt_err in E5.
    inversion_clear E5 as [|? ? _ E]. inversion_clear E as [|? ? _ E'].
    inversion_clear E' as [|? ? _ E]. inversion_clear E as [|? ? _ E'].
    inversion_clear E' as [|? ? E _]. congruence.
Qed.

Definition contq (s s' : span) (x : located container) : Prop :=
  l_reg x = reg s s' /\ sp_start s < sp_start s' /\
  container_ok uri_parse date_parse inner bd (S (sp_depth s)) (sp_start s) (l_val x) (sp_start s') /\
  (remaining s' = [] \/ at_eol (remaining s') 0).

Definition inq_d (s s' : span) (x : located inline) : Prop := inq (with_deeper s) (with_deeper s') x.

Lemma GP_deeper_inline n :
  GP n (fun s => Pt pdec (with_deeper s)) (deeper (inline_element uri_parse date_parse)) inq_d.
Proof. apply GP_deeper, GP_inline_element. Qed.

Lemma sok_deeper s : sok s -> sok (with_deeper s).
Proof. intros (? & ? & ? & ? & ?). repeat split; auto. Qed.

Lemma remaining_deeper s : remaining (with_deeper s) = remaining s.
Proof. reflexivity. Qed.

Lemma deeper_err {A} (p : parser A) s : deeper p s = Err -> p (with_deeper s) = Err.
Proof. unfold deeper. destruct (p (with_deeper s)); cbn; congruence. Qed.

Lemma inq_d_chain s l s' :
  sok s -> steps inq_d s l s' ->
  chain bd exact exact (iok (S (sp_depth s))) (S (sp_depth s)) (sp_start s) l (sp_start s').
Proof.
  intros Hs H. induction H as [s|s s1 s2 a l Hs0 Ha Hlt Hq Hst IH]; cbn [chain]; [reflexivity|].
  destruct Hq as (Hr & _ & HP & _). rewrite Hr.
  cbn [r_off r_len r_depth reg with_deeper with_depth sp_start sp_depth] in *.
  replace (sp_depth s + 1) with (S (sp_depth s)) in * by lia.
  replace (sp_start s + (sp_start s1 - sp_start s)) with (sp_start s1) by lia.
  assert (Hd : sp_depth s1 = sp_depth s) by apply Ha. rewrite Hd in IH.
  repeat split; eauto using sok_bd, adv_bd; try lia. apply IH. eauto using adv_sok.
Qed.

Lemma slice1 (l : str) i b : nth_error l i = Some b -> slice i (i + 1) l = [b].
Proof.
  intro H. apply nth_error_split in H as (l1 & l2 & -> & <-). unfold slice.
  rewrite skipn_app, skipn_all, Nat.sub_diag. cbn. now replace (length l1 + 1 - length l1) with 1 by lia.
Qed.

Lemma at_eol_break s : sok s -> at_eol (remaining s) 0 -> line_break inner (sp_start s).
Proof.
  intros Hs H. destruct H as [H|[H1 H2]].
  - apply nth_remaining in H as [H _]; auto. rewrite Nat.add_0_r in H.
    exists [b_nl]. split; auto. cbn [length]. eapply slice1; eauto.
  - apply nth_remaining in H1 as [H1 _]; auto. apply nth_remaining in H2 as [H2 _]; auto.
    rewrite Nat.add_0_r in H1. exists [b_cr; b_nl]. split; auto. cbn [length].
    rewrite (slice_app _ (sp_start s + 1)) by lia.
    rewrite (slice1 _ _ _ H1). replace (sp_start s + 2) with (sp_start s + 1 + 1) by lia.
    now rewrite (slice1 _ _ _ H2).
Qed.

Lemma inq_d_comments s l s' : sok s -> steps inq_d s l s' -> comments_end inner l.
Proof.
  intros Hs H. induction H as [s|s s1 s2 a l Hs0 Ha Hlt Hq Hst IH]; intros c1 x c2 t E Hx.
  - now destruct c1.
  - assert (Hs1 : sok s1) by eauto using adv_sok.
    destruct c1 as [|y c1]; cbn [app] in E; injection E as -> ->; [|eapply IH; eauto].
    destruct Hq as (Hr & _ & _ & _ & Hstop). destruct (Hstop t Hx) as [K|K].
    + left. inversion Hst as [|? s3 ? ? ? _ Ha3 Hlt3 _ _]; subst; auto. exfalso.
      apply (f_equal (@length _)) in K. rewrite remaining_deeper, remaining_length in K by auto. cbn in K.
      destruct Ha3 as (_ & _ & _ & _ & Ha3 & _). lia.
    + right. rewrite Hr. cbn [r_off r_len reg with_deeper with_depth sp_start].
      replace (sp_start s + (sp_start s1 - sp_start s)) with (sp_start s1) by lia. now apply at_eol_break.
Qed.

Lemma GP_container n : GP n edge (inline_element_container uri_parse date_parse) contq.
Proof.
  unfold inline_element_container. eapply GP_weaken; [eapply (GP_located_p n
     (fun s => Pt pdec (with_deeper s))) | |].
  - eapply (GP_many1 n (fun s => Pt pdec (with_deeper s))); [apply GP_deeper_inline| |].
    + intros s s' a Hs HP Ha (_ & _ & _ & H & _). exact H.
    + intros s s' a Hs Ha (_ & H & _). exact H.
  - intros s Hs He. left. exact He.
  - cbv beta. intros s s' x Hs He Ha (Hr & Hne & Hst & Herr & HP).
    assert (Hs' : sok s') by eauto using adv_sok.
    split; auto. split; [|split].
    + inversion Hst as [? E1 E2|? s1 ? ? ? K0 K1 K2 K3 K4 K5 K6]; subst.
      * exfalso. apply Hne. auto.
      * pose proof (steps_adv _ _ _ _ (adv_sok _ _ K0 K1) K4) as K7. apply adv_start in K7. lia.
    + assert (Hc : comments_end inner (l_val x)) by exact (inq_d_comments s _ s' Hs Hst).
      split; auto. split; auto. now apply inq_d_chain.
    + apply deeper_err in Herr. apply inline_total in Herr; auto using sok_deeper.
Qed.

(** A container is found everywhere but at the end of a line. *)
Lemma container_total s :
  sok s -> edge s -> inline_element_container uri_parse date_parse s = Err ->
  remaining s = [] \/ at_eol (remaining s) 0.
Proof.
  intros Hs He H. unfold inline_element_container in H.
  pose proof (GP_deeper_inline (S (remaining_len s)) s Hs ltac:(lia) (or_introl He)) as H1.
  unfold located_p, locate, capture, many1 in H. unfold R in H1.
  destruct (deeper (inline_element uri_parse date_parse) s) as [s1 a| | |] eqn:E;
    cbn [bind] in H; try discriminate.
  - exfalso. destruct H1 as [Ha Hq].
    pose proof (many0_not_err (S (remaining_len s)) (fun s => Pt pdec (with_deeper s)) _ inq_d s1
      (GP_deeper_inline _)) as Hm.
    pose proof (adv_sok _ _ Hs Ha) as Hs1. pose proof (adv_rl _ _ Hs Ha).
    assert (Hm0 : many0 (deeper (inline_element uri_parse date_parse)) s1 <> Err).
    { apply Hm; auto; try lia.
      - intros t t' b _ _ _ (_ & _ & _ & K & _). exact K.
      - intros t t' b _ _ (_ & K & _). exact K.
      - destruct Hq as (_ & _ & _ & K & _). exact K. }
    pose proof (GP_many0 (S (remaining_len s)) (fun s => Pt pdec (with_deeper s)) _ inq_d
       (GP_deeper_inline _) ltac:(intros t t' b _ _ _ (_ & _ & _ & K & _); exact K) s1 Hs1 ltac:(lia)
       ltac:(destruct Hq as (_ & _ & _ & K & _); exact K)) as Hr. unfold R in Hr.
    destruct (many0 (deeper (inline_element uri_parse date_parse)) s1) as [s2 l| | |];
      cbn [bind] in H; try discriminate; [|congruence].
    destruct Hr as [Hb _]. apply adv_start in Ha, Hb.
    destruct (sp_start s2 <? sp_start s) eqn:E1; [apply Nat.ltb_lt in E1; lia | discriminate].
  - apply deeper_err in E. apply inline_total in E; auto using sok_deeper. now left.
Qed.

End TextProofs.
