(** Contracts of the inline parsers (comments, code, math, tags, links). *)
From Verif Require Import Base ModelSpan ModelComb ModelAst ModelLink ModelInline
  SpecDoc ProofBase ProofBytes ProofContract ProofPrim.

(** Bind step: [L] is the contract of the first parser. *)
Tactic Notation "gbind" uconstr(L) "as" simple_intropattern(s1) simple_intropattern(x)
  simple_intropattern(Ha) simple_intropattern(Hs) simple_intropattern(Hn)
  simple_intropattern(HQ) :=
  (eapply G_bind; [eapply L | eassumption | eassumption | cbv beta; intros s1 x Ha Hs Hn HQ]).
Ltac rok := apply R_ok; [now apply adv_refl|].
Ltac asc_lit := repeat (constructor; [reflexivity|]); constructor.

Section InlineProofs.
Context {EV : env}.
Local Notation inner := (e_inner EV).
Local Notation bd := (e_bd EV).
Local Notation pan := (e_pan EV).
Local Notation uri_parse := (e_uri EV).
Local Notation date_parse := (e_date EV).
Local Notation iok := (inline_ok uri_parse date_parse inner bd).

Lemma remaining_split s s1 : sok s -> adv s s1 -> remaining s = txt s s1 ++ remaining s1.
Proof.
  intros Hs Ha. rewrite !remaining_eq by eauto using adv_sok.
  destruct Ha as (_ & -> & _ & H1 & H2 & _). unfold txt. now apply slice_app.
Qed.

Lemma remaining_cov s s1 : sok s -> remaining (cov s s1) = txt s s1.
Proof. reflexivity. Qed.

Lemma cov_sok s s1 : sok s -> adv s s1 -> sok (cov s s1).
Proof. intros Hs Ha. apply (cov_sub s s1 Hs Ha). Qed.

Lemma cov_rl s s1 : sok s -> adv s s1 -> remaining_len (cov s s1) <= remaining_len s.
Proof. intros Hs Ha. eapply sub_rl; eauto. now apply cov_sub. Qed.

(** A byte string made of the text of one of its spans. *)
Lemma G_cow {n} (p : parser span) (Q : span -> span -> span -> Prop) :
  G n p Q -> (forall s s' o, sok s -> adv s s' -> Q s s' o -> sok o) ->
  G n (map_parser p cow_str) (fun s s' t => exists o, Q s s' o /\ t = remaining o).
Proof.
  intros H Ho. eapply G_map_parser; [exact H|].
  intros s s1 o Hs Hn Ha HQ. split; [eauto|]. unfold cow_str.
  apply R_ok; [apply adv_refl; eauto|]. eauto.
Qed.

Lemma G_cow_cov {n} (p : parser span) (Q : span -> span -> Prop) :
  G n p (fun s s' o => o = cov s s' /\ Q s s') ->
  G n (map_parser p cow_str) (fun s s' t => t = txt s s' /\ Q s s').
Proof.
  intro H. eapply G_weaken; [eapply (G_cow _ _ H)|].
  - intros s s' o Hs Ha [-> _]. now apply cov_sok.
  - intros s s' t Hs Ha (o & [-> HQ] & ->). auto.
Qed.

(** Facts about where a line-bounded parser stops. *)
Lemma occ_single c l k : nth_error l k = Some c -> occ [c] l k.
Proof.
  intro H. unfold occ. destruct (skipn k l) as [|b r] eqn:E.
  - rewrite <- (Nat.add_0_r k), <- nth_error_skipn, E in H. discriminate.
  - rewrite <- (Nat.add_0_r k), <- nth_error_skipn, E in H. cbn in H. injection H as ->.
    cbn [starts_with]. now rewrite beqb_refl.
Qed.

Lemma txt_firstn s s' : sok s -> adv s s' -> txt s s' = firstn (sp_start s' - sp_start s) (remaining s).
Proof.
  intros Hs Ha. rewrite (remaining_split s s' Hs Ha).
  rewrite <- (txt_length s s' Hs Ha), firstn_app, Nat.sub_diag, firstn_all. cbn.
  now rewrite app_nil_r.
Qed.

Lemma remaining_skipn s s' :
  sok s -> adv s s' -> remaining s' = skipn (sp_start s' - sp_start s) (remaining s).
Proof.
  intros Hs Ha. rewrite (remaining_split s s' Hs Ha).
  rewrite <- (txt_length s s' Hs Ha), skipn_app, Nat.sub_diag, skipn_all. reflexivity.
Qed.

Lemma line_stop_no_char pats s s' c :
  sok s -> adv s s' -> line_stop pats (remaining s) (sp_start s' - sp_start s) ->
  In [c] pats -> ~ In c (txt s s').
Proof.
  intros Hs Ha (_ & _ & H & _) Hi Hc. rewrite (txt_firstn s s' Hs Ha) in Hc.
  apply In_nth_error in Hc as [k Hk].
  assert (k < sp_start s' - sp_start s).
  { assert (k < length (firstn (sp_start s' - sp_start s) (remaining s)))
      by (apply nth_error_Some; congruence). rewrite firstn_length in *. lia. }
  rewrite nth_error_firstn in Hk by auto. eapply H; eauto. now apply occ_single.
Qed.

Lemma occ_app_l pat a b k : occ pat a k -> occ pat (a ++ b) k.
Proof.
  unfold occ. rewrite !starts_with_spec. intros [r H].
  destruct (le_lt_dec k (length a)).
  - exists (r ++ b). rewrite skipn_app, H. replace (k - length a) with 0 by lia. cbn.
    now rewrite <- app_assoc.
  - rewrite skipn_all2 in H by lia. symmetry in H. apply app_eq_nil in H as [-> _].
    exists (skipn k (a ++ b)). reflexivity.
Qed.

Lemma line_stop_absent pats s s' pat :
  sok s -> adv s s' -> line_stop pats (remaining s) (sp_start s' - sp_start s) ->
  In pat pats -> pat <> [] -> absent pat (txt s s').
Proof.
  intros Hs Ha (_ & _ & H & _) Hi Hp. apply absent_no_occ. intros k Ho.
  assert (k < sp_start s' - sp_start s).
  { pose proof (occ_iff _ _ _ Ho) as [_ Hl]. specialize (Hl Hp).
    rewrite txt_length in Hl by auto. destruct pat; [congruence|]. cbn in Hl. lia. }
  apply (H k pat); auto. rewrite (remaining_split s s' Hs Ha). now apply occ_app_l.
Qed.

Lemma line_stop_next pats s s' :
  sok s -> adv s s' -> line_stop pats (remaining s) (sp_start s' - sp_start s) ->
  remaining s' = [] \/ at_eol (remaining s') 0 \/
  exists pat, In pat pats /\ starts_with pat (remaining s') = true.
Proof.
  intros Hs Ha (H1 & _ & _ & [H|[H|[pat [Hi Ho]]]]).
  - left. rewrite (remaining_skipn s s' Hs Ha), H. apply skipn_all.
  - right. left. rewrite (remaining_skipn s s' Hs Ha).
    unfold at_eol in *. rewrite !nth_error_skipn.
    replace (sp_start s' - sp_start s + 0) with (sp_start s' - sp_start s) by lia.
    now replace (sp_start s' - sp_start s + 1) with (S (sp_start s' - sp_start s)) by lia.
  - right. right. exists pat. split; auto. unfold occ in Ho.
    now rewrite (remaining_skipn s s' Hs Ha).
Qed.

Lemma at_eol_nl l : at_eol l 0 -> In b_nl l.
Proof. intros [H|[_ H]]; eapply nth_error_In; eauto. Qed.

Lemma no_nl_app a b : no_nl (a ++ b) -> no_nl a /\ no_nl b.
Proof. intro H. split; intro K; apply H; apply in_or_app; auto. Qed.

Lemma at_eol_line_ending s : at_eol (remaining s) 0 -> exists s' o, line_ending s = Ok s' o.
Proof.
  intro H. unfold line_ending, palt, tag, ok_split.
  destruct (remaining s) as [|b r]; [destruct H as [H|[H _]]; discriminate|].
  destruct H as [H|[H1 H2]]; cbn in *.
  - injection H as ->. cbn. eauto.
  - injection H1 as ->. cbn. destruct r as [|b' r']; [discriminate|]. cbn in H2. injection H2 as ->.
    cbn. eauto.
Qed.

(** * Comments *)

(** The post-condition of a located inline parser. *)
Definition LQ {A} (f : A -> inline) (s s' : span) (x : located A) : Prop :=
  l_reg x = reg s s' /\ sp_start s < sp_start s' /\
  iok (sp_depth s) (sp_start s) (sp_start s') (f (l_val x)) /\ edge s'.

Lemma G_LQ {A} n (f : A -> inline) (p : parser A) :
  G n p (fun s s' a => sp_start s < sp_start s' /\
           iok (sp_depth s) (sp_start s) (sp_start s') (f a) /\ edge s') ->
  G n (located_p p) (LQ f).
Proof. intro H. eapply G_weaken; [apply G_located_p, H|]. intros s s' x _ _ [H1 H2]. split; auto. Qed.

Lemma txt_lt s s' t : sok s -> adv s s' -> txt s s' = t -> 0 < length t -> sp_start s < sp_start s'.
Proof. intros Hs Ha <-. rewrite txt_length by auto. lia. Qed.

Lemma adv_start s s' : adv s s' -> sp_start s <= sp_start s'.
Proof. intros (_ & _ & _ & H & _). exact H. Qed.

Lemma G_line_comment n : G n line_comment (LQ IComment).
Proof.
  unfold line_comment. apply G_LQ. intros s Hs Hn.
  gbind (G_tag n pct2) as s1 o H1 Hs1 Hn1 [Ht _]; [asc_lit|].
  gbind (G_cow_cov _ _ (G_take_until_eol n)) as s2 t H2 Hs2 Hn2 [Ht2 [HQ Hst]].
  rok. split; [|split].
  - pose proof (txt_lt _ _ _ Hs H1 Ht ltac:(cbn; lia)). pose proof (adv_start _ _ H2). lia.
  - cbn. subst t. split; auto.
    change (txt s s2 = bs "%%" ++ txt s1 s2). rewrite (txt_app s s1 s2), Ht by auto. reflexivity.
  - destruct (line_stop_next _ _ _ Hs1 H2 Hst) as [H|[H|[pat [[] _]]]].
    + apply edge_none; auto. unfold next. now rewrite H.
    + destruct H as [H|[H _]]; (eapply edge_next; [auto | exact H | reflexivity]).
Qed.

(** Lines of a multi line comment. *)
Definition cline (s s' : span) (t : str) : Prop :=
  exists sm, adv s sm /\ adv sm s' /\ t = txt s sm /\ no_nl t /\
             (txt sm s' = [b_nl] \/ txt sm s' = [b_cr; b_nl]).

Lemma G_cline n :
  G n (terminated (map_parser take_until_end_of_line_or_input cow_str) line_ending) cline.
Proof.
  eapply G_weaken.
  - eapply G_terminated; [|apply G_line_ending].
    apply (G_cow_cov take_until_end_of_line_or_input), G_take_until_eol.
  - cbv beta. intros s s' t Hs Ha (s1 & o & H1 & H2 & [-> [H3 _]] & H4).
    exists s1. auto.
Qed.

Lemma cline_err s :
  sok s -> terminated (map_parser take_until_end_of_line_or_input cow_str) line_ending s = Err ->
  no_nl (remaining s).
Proof.
  intros Hs H.
  pose proof (G_cow_cov take_until_end_of_line_or_input _ (G_take_until_eol (S (remaining_len s)))
                s Hs ltac:(lia)) as HR.
  unfold terminated in H.
  destruct (map_parser take_until_end_of_line_or_input cow_str s) as [s1 t| | |] eqn:E;
    cbn [bind] in H; try discriminate.
  - destruct HR as [Ha (Ht & H1 & H2)].
    pose proof (line_stop_next _ _ _ Hs Ha H2) as [H3|[H3|[pat [[] _]]]].
    + rewrite (remaining_split s s1), H3, app_nil_r by auto. exact H1.
    + destruct (at_eol_line_ending _ H3) as (s2 & o & E2). rewrite E2 in H. discriminate.
  - exfalso. unfold map_parser, take_until_end_of_line_or_input in E.
    destruct (find_pos is_nl (remaining s)); discriminate.
Qed.

Lemma steps_clines s l s' :
  sok s -> steps cline s l s' ->
  exists ls, txt s s' = concat (map (fun p => fst p ++ snd p) ls) /\
    Forall (fun p => no_nl (fst p) /\ (snd p = [b_nl] \/ snd p = [b_cr; b_nl])) ls /\
    l = map fst ls.
Proof.
  intros Hs H. induction H as [s|s s1 s2 a l Hs0 Ha Hlt HQ Hst IH].
  - exists []. rewrite txt_same by auto. auto.
  - assert (Hs1 : sok s1) by eauto using adv_sok. destruct (IH Hs1) as (ls & E1 & E2 & E3).
    destruct HQ as (sm & K1 & K2 & K3 & K4 & K5).
    exists ((a, txt sm s1) :: ls). cbn [map concat fst snd]. split; [|split].
    + rewrite (txt_app s s1 s2), (txt_app s sm s1) by (eauto using steps_adv).
      now rewrite E1, K3.
    + constructor; auto.
    + now f_equal.
Qed.

Lemma G_comment_lines n :
  G n comment_lines (fun s s' ls => comment_text ls (remaining s)).
Proof.
  intros s Hs Hn. unfold comment_lines.
  gbind (G_many0 n _ _ (G_cline n)) as s1 lines H1 Hs1 Hn1 [Hst He].
  gbind (G_rest_len n) as s2 k H2 Hs2 Hn2 [-> ->].
  pose proof (cline_err _ Hs1 He) as Hnl.
  destruct (steps_clines _ _ _ Hs Hst) as (ls & E1 & E2 & E3).
  assert (Hsp : remaining s = concat (map (fun p => fst p ++ snd p) ls) ++ remaining s1).
  { rewrite (remaining_split s s1), E1 by auto. reflexivity. }
  destruct (0 <? remaining_len s1) eqn:El.
  - eapply R_bind; [apply (G_cow rest _ (G_rest n)); auto; intros ? ? ? ? ? [-> _]; auto|].
    cbv beta. intros s3 t H3 (o & [-> _] & ->). apply R_ok; [eauto using adv_refl, adv_sok|].
    apply Nat.ltb_lt in El. rewrite rl_eq in El by auto.
    exists ls, (remaining s1). repeat split; auto. rewrite E3.
    destruct (remaining s1) as [|b r] eqn:Er; [|reflexivity].
    apply (f_equal (@length _)) in Er. rewrite remaining_length in Er by auto. cbn in Er. lia.
  - apply Nat.ltb_ge in El. rewrite rl_eq in El by auto. rok.
    assert (Er : remaining s1 = []).
    { apply length_zero_iff_nil. rewrite remaining_length by auto. lia. }
    exists ls, []. rewrite Er in *. repeat split; auto. rewrite E3. now rewrite app_nil_r.
Qed.

Lemma G_multi_line_comment n : G n multi_line_comment (LQ IComment).
Proof.
  unfold multi_line_comment. apply G_LQ. intros s Hs Hn.
  gbind (G_tag n (bs "%%+")) as s1 o H1 Hs1 Hn1 [Ht _]; [asc_lit|].
  eapply (G_bind n _ _ _ (fun s s' ls => comment_text ls (txt s s') /\ absent (bs "+%%") (txt s s')));
    [|eassumption|eassumption|].
  { eapply G_map_parser; [apply (G_take_until n (bs "+%%")); [discriminate|reflexivity]|].
    cbv beta. intros a b c Ha Hna Hab (-> & Hoc & Hmin). split; [now apply cov_sok|].
    eapply R_weaken; [apply (G_comment_lines n)|].
    - now apply cov_sok.
    - pose proof (cov_rl a b Ha Hab). lia.
    - cbv beta. intros _ ls _ Hls. split; auto.
      apply absent_no_occ. intros k Hk. apply (Hmin k).
      + pose proof (occ_iff _ _ _ Hk) as [_ Hl]. specialize (Hl ltac:(discriminate)).
        rewrite txt_length in Hl by auto. cbn in Hl. lia.
      + rewrite (remaining_split a b) by auto. now apply occ_app_l. }
  intros s2 lines H2 Hs2 Hn2 [Hc Hab].
  gbind (G_tag n (bs "+%%")) as s3 o3 H3 Hs3 Hn3 [Ht3 _]; [asc_lit|].
  rok. split; [|split].
  - pose proof (txt_lt _ _ _ Hs H1 Ht ltac:(cbn; lia)).
    pose proof (adv_start _ _ H2). pose proof (adv_start _ _ H3). lia.
  - cbn. exists (txt s1 s2). split; auto.
    change (txt s s3 = bs "%%+" ++ txt s1 s2 ++ bs "+%%").
    rewrite (txt_app s s1 s3), (txt_app s1 s2 s3), Ht, Ht3 by eauto using adv_trans. reflexivity.
  - apply (edge_byte s2 s3 (bs "+%") x25); auto.
Qed.

Lemma G_p_comment n : G n p_comment (LQ IComment).
Proof. apply G_palt; [apply G_multi_line_comment | apply G_line_comment]. Qed.

(** A line comment ends at the end of the line. *)
Definition stops_line (s' : span) (x : inline) : Prop :=
  forall t, x = IComment (CLine t) -> remaining s' = [] \/ at_eol (remaining s') 0.

Lemma G_line_comment_stop n : G n line_comment (fun s s' x => stops_line s' (IComment (l_val x))).
Proof.
  unfold line_comment. eapply G_weaken; [apply G_located_p|].
  - intros s Hs Hn. instantiate (1 := fun s s' x => stops_line s' (IComment x)).
    gbind (G_tag n pct2) as s1 o H1 Hs1 Hn1 [Ht _]; [asc_lit|].
    gbind (G_cow_cov _ _ (G_take_until_eol n)) as s2 t H2 Hs2 Hn2 [Ht2 [HQ Hst]].
    rok. intros t' _. destruct (line_stop_next _ _ _ Hs1 H2 Hst) as [H|[H|[pat [[] _]]]]; auto.
  - cbv beta. intros s s' x _ _ [_ H]. exact H.
Qed.

Lemma G_multi_comment_stop n : G n multi_line_comment (fun s s' x => stops_line s' (IComment (l_val x))).
Proof.
  unfold multi_line_comment. eapply G_weaken; [apply G_located_p|].
  - intros s Hs Hn. instantiate (1 := fun s s' x => stops_line s' (IComment x)).
    gbind (G_tag n (bs "%%+")) as s1 o H1 Hs1 Hn1 [Ht _]; [asc_lit|].
    eapply (G_bind n _ _ _ (fun s s' ls => True)); [|eassumption|eassumption|].
    { eapply G_map_parser; [apply (G_take_until n (bs "+%%")); [discriminate|reflexivity]|].
      cbv beta. intros a b c Ha Hna Hab (-> & _ & _). split; [now apply cov_sok|].
      eapply R_weaken; [apply (G_comment_lines n)|auto].
      - now apply cov_sok.
      - pose proof (cov_rl a b Ha Hab). lia. }
    intros s2 lines H2 Hs2 Hn2 _.
    gbind (G_tag n (bs "+%%")) as s3 o3 H3 Hs3 Hn3 [Ht3 _]; [asc_lit|].
    rok. intros t E. discriminate.
  - cbv beta. intros s s' x _ _ [_ H]. exact H.
Qed.

Lemma G_and {A} n (p : parser A) Q1 Q2 :
  G n p Q1 -> G n p Q2 -> G n p (fun s s' a => Q1 s s' a /\ Q2 s s' a).
Proof.
  intros H1 H2 s Hs Hn. specialize (H1 s Hs Hn). specialize (H2 s Hs Hn). unfold R in *.
  destruct (p s); tauto.
Qed.

Lemma G_p_comment_stop n :
  G n p_comment (fun s s' x => LQ IComment s s' x /\ stops_line s' (IComment (l_val x))).
Proof.
  apply G_and; [apply G_p_comment|].
  apply G_palt; [apply G_multi_comment_stop | apply G_line_comment_stop].
Qed.

(** * Inline code and math *)

Lemma surr_lt L R s s' o :
  sok s -> adv s s' -> surr L R s s' o -> 0 < length L -> sp_start s < sp_start s'.
Proof. intros Hs Ha (_ & (_ & H & _) & _ & H3 & H4) HL. lia. Qed.

Lemma surr_edge L r b s s' o :
  sok s -> adv s s' -> surr L (r ++ [b]) s s' o -> seam_byte b = true -> edge s'.
Proof.
  intros Hs Ha ((H & _) & _) Hb. apply (edge_byte s s' (L ++ remaining o ++ r) b); auto.
  change (txt s s' = L ++ remaining o ++ r ++ [b]) in H. rewrite H. now rewrite !app_assoc.
Qed.

Lemma G_code_inline n : G n code_inline (LQ ICode).
Proof.
  unfold code_inline. apply G_LQ. eapply G_weaken.
  - eapply (G_cow _ (surr (bs "`") (bs "`"))).
    + apply G_surround; [asc_lit | asc_lit | discriminate].
    + intros s s' o _ _ H. apply H.
  - cbv beta. intros s s' t Hs Ha (o & Ho & ->). split; [|split].
    + eapply surr_lt; eauto; cbn; lia.
    + cbn. apply Ho.
    + apply (surr_edge (bs "`") [] x60 s s' o); auto.
Qed.

Lemma G_math_inline n : G n math_inline (LQ IMath).
Proof.
  unfold math_inline. apply G_LQ. eapply G_weaken.
  - eapply G_cow.
    + eapply G_delimited; [apply (G_pchar n x24); reflexivity | | apply (G_pchar n x24); reflexivity].
      apply G_not_contains; [|discriminate].
      apply (G_take_line_until1 n (bs "$")); [discriminate | cbn; lia | reflexivity].
    + cbv beta. intros s s' o Hs Ha (s1 & s2 & a & c & H1 & H2 & H3 & _ & [[-> _] _] & _).
      apply cov_sok; eauto using adv_sok.
  - cbv beta. intros s s' t Hs Ha (o & (s1 & s2 & a & c & H1 & H2 & H3 & Ht1 & HQ & Ht3) & ->).
    destruct HQ as [(-> & [Hnl Hst] & Hlt) Hab]. rewrite remaining_cov in * by eauto using adv_sok.
    split; [|split].
    + pose proof (adv_start _ _ H1). pose proof (adv_start _ _ H3). lia.
    + cbn. split; [|split; [|split; [|split]]].
      * change (txt s s' = bs "$" ++ txt s1 s2 ++ bs "$").
        rewrite (txt_app s s1 s'), (txt_app s1 s2 s'), Ht1, Ht3 by eauto using adv_trans. reflexivity.
      * intro Hn. pose proof (txt_length s1 s2 ltac:(eauto using adv_sok) H2) as Hl.
        rewrite Hn in Hl. cbn in Hl. lia.
      * exact Hnl.
      * exact Hab.
      * eapply line_stop_no_char; eauto using adv_sok. now left.
    + assert (sok s1) by eauto using adv_sok. apply (edge_byte s2 s' [] x24); eauto using adv_sok.
Qed.

(** * Tags *)

Definition tagq (s s' : span) (t : str) : Prop :=
  exists sm, adv s sm /\ adv sm s' /\ t = txt s sm /\ t <> [] /\ ~ In x3a t /\ txt sm s' = bs ":".

Lemma G_tag_content n : G n (terminated tag_content (pchar x3a)) tagq.
Proof.
  eapply G_weaken.
  - eapply G_terminated; [|apply (G_pchar n x3a); reflexivity].
    unfold tag_content. apply (G_cow_cov (take_line_until_one_of_three1 (bs ":") (bs " ") [b_tab])).
    apply G_take_line_until_three1; try discriminate; reflexivity.
  - cbv beta. intros s s' t Hs Ha (s1 & c & H1 & H2 & [-> [[Hnl Hst] Hlt]] & H3).
    exists s1. split; auto. split; auto. split; auto. split; [|split; auto].
    + intro Hn. pose proof (txt_length s s1 Hs H1) as Hl. rewrite Hn in Hl. cbn in Hl. lia.
    + eapply line_stop_no_char; eauto. now left.
Qed.

Lemma steps_tags s l s' :
  sok s -> steps tagq s l s' ->
  txt s s' = concat (map (fun t => t ++ bs ":") l) /\ Forall (fun t => t <> [] /\ ~ In x3a t) l.
Proof.
  intros Hs H. induction H as [s|s s1 s2 a l Hs0 Ha Hlt HQ Hst IH].
  - rewrite txt_same by auto. auto.
  - assert (Hs1 : sok s1) by eauto using adv_sok. destruct (IH Hs1) as [E1 E2].
    destruct HQ as (sm & K1 & K2 & K3 & K4 & K5 & K6). split.
    + rewrite (txt_app s s1 s2), (txt_app s sm s1) by (eauto using steps_adv).
      cbn [map concat]. now rewrite E1, K3, K6.
    + constructor; auto.
Qed.

Lemma G_tags_body n :
  G n (fun s => do (s1, _) <- pchar x3a s;;
                do (s2, contents) <- many1 (terminated tag_content (pchar x3a)) s1;;
                Ok s2 contents)
    (fun s s' ts => ts <> [] /\ Forall (fun t => t <> [] /\ ~ In x3a t) ts /\
        txt s s' = bs ":" ++ concat (map (fun t => t ++ bs ":") ts)).
Proof.
  intros s Hs Hn. gbind (G_pchar n x3a) as s1 c H1 Hs1 Hn1 Ht; [reflexivity|].
  eapply G_bind; [eapply G_many1_steps; [apply G_tag_content|] | eassumption | eassumption |].
  { intros a b t Ha Hab (sm & K1 & K2 & K3 & K4 & _).
    pose proof (adv_start _ _ K2). pose proof (txt_lt a sm t Ha K1 (eq_sym K3)).
    destruct t; [congruence|]. cbn in *. lia. }
  cbv beta. intros s2 ts H2 Hs2 Hn2 (Hne & Hst & _).
  destruct (steps_tags _ _ _ Hs1 Hst) as [E1 E2]. rok. split; auto. split; auto.
  rewrite (txt_app s s1 s2), Ht, E1 by auto. reflexivity.
Qed.

Lemma slice_sub_in {A} (b : A) i j i' j' l :
  i <= i' -> j' <= j -> In b (slice i' j' l) -> In b (slice i j l).
Proof.
  intros H1 H2 H. destruct (le_lt_dec j' i') as [Hle|Hlt].
  - rewrite slice_nil in H by lia. destruct H.
  - rewrite (slice_app i i' j), (slice_app i' j' j) by lia.
    apply in_or_app. right. apply in_or_app. now left.
Qed.

Lemma G_tags n : G n tags (LQ ITags).
Proof.
  unfold tags. apply G_LQ. eapply G_map_parser; [apply (G_whole_word n)|].
  cbv beta. intros s s1 o Hs Hn Ha (-> & Hbow & Hws & Hlt & Hed). split; [now apply cov_sok|].
  eapply R_weaken; [apply (G_tags_body n)|].
  - now apply cov_sok.
  - pose proof (cov_rl s s1 Hs Ha). lia.
  - cbv beta. intros o' ts Ho (H1 & H2 & H3). split; auto. split; auto. cbn. split; [exact Hbow|]. split; auto.
    assert (Hsp : txt s s1 = (bs ":" ++ concat (map (fun t => t ++ bs ":") ts)) ++ remaining o').
    { rewrite <- H3, <- remaining_split by (auto using cov_sok). reflexivity. }
    split; [|split].
    + apply Forall_forall. intros t Hin. rewrite Forall_forall in H2. destruct (H2 t Hin) as [K1 K2].
      split; auto. apply Forall_forall. intros b Hb. split.
      * intros ->. auto.
      * rewrite Forall_forall in Hws. apply Hws. rewrite Hsp. apply in_or_app. left.
        apply in_or_app. right. apply in_concat. exists (t ++ bs ":"). split.
        -- now apply (in_map (fun t => t ++ bs ":")).
        -- apply in_or_app. now left.
    + exists (remaining o'). exact Hsp.
    + exact Hws.
Qed.

End InlineProofs.
