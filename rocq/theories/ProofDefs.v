(** Contracts of the definition list and table parsers. *)
From Verif Require Import Base ModelSpan ModelComb ModelAst ModelTable ModelLink ModelInline ModelBlock
  SpecDoc SpecBlock ProofBase ProofBytes ProofContract ProofPrim ProofInline ProofLink ProofText
  ProofBlock.

Section DefProofs.
Context {EV : env}.
Local Notation inner := (e_inner EV).
Local Notation bd := (e_bd EV).
Local Notation pan := (e_pan EV).
Local Notation uri_parse := (e_uri EV).
Local Notation date_parse := (e_date EV).
Local Notation bok := (block_ok uri_parse date_parse inner bd).
Local Notation cok := (container_ok uri_parse date_parse inner bd).
Local Notation text lo hi := (slice lo hi inner).

Lemma adv_depth s s' : adv s s' -> sp_depth s' = sp_depth s.
Proof. now intros (_ & _ & H & _). Qed.

Lemma container_cov s s1 :
  sok s -> adv s s1 -> edge s -> no_nl (txt s s1) ->
  R (cov s s1) (container_inner uri_parse date_parse (cov s s1))
    (fun _ c => cok (S (sp_depth s)) (sp_start s) c (sp_start s1) /\ sp_start s < sp_start s1).
Proof.
  intros Hs Ha He Hn. assert (Hc : sok (cov s s1)) by now apply cov_sok.
  apply (container_in (cov s s1)); auto.
  apply (edge_sub s); auto. cbn. destruct Ha as (_ & _ & _ & _ & H & _). exact H.
Qed.

(** [map_parser p container] when [p] returns the text it consumed. *)
Lemma GP_cov_container n P (p : parser span) (Q : span -> span -> Prop) :
  GP n P p (fun s s' o => o = cov s s' /\ no_nl (txt s s') /\ Q s s') ->
  (forall s, sok s -> P s -> edge s) ->
  GP n P (map_parser p (container_inner uri_parse date_parse))
    (fun s s' c => cok (S (sp_depth s)) (sp_start s) c (sp_start s') /\ sp_start s < sp_start s' /\
                   no_nl (txt s s') /\ Q s s').
Proof.
  intros H HP s Hs Hn Hp. unfold map_parser. eapply R_bind; [apply H; auto|]. cbv beta.
  intros s1 o Ha (-> & Hnl & HQ). assert (Hs1 : sok s1) by eauto using adv_sok.
  pose proof (container_cov s s1 Hs Ha (HP _ Hs Hp) Hnl) as HC. unfold R in HC.
  destruct (container_inner uri_parse date_parse (cov s s1)) as [x c| | |]; cbn [bind]; auto.
  rok. tauto.
Qed.

(** The text up to the end of the line is followed by it. *)
Lemma line_stop_nil_next s s' :
  sok s -> adv s s' -> line_stop [] (remaining s) (sp_start s' - sp_start s) ->
  remaining s' = [] \/ at_eol (remaining s') 0.
Proof.
  intros Hs Ha H. destruct (line_stop_next _ _ _ Hs Ha H) as [K|[K|[pat [[] _]]]]; auto.
Qed.

(** At the end of a line there are no blanks to skip. *)
Lemma space0_at_eol s s' :
  sok s -> adv s s' -> (remaining s = [] \/ at_eol (remaining s) 0) -> blanks (txt s s') -> s' = s.
Proof.
  intros Hs Ha H Hb. assert (Hs' : sok s') by eauto using adv_sok.
  apply sok_ext; auto; try (now destruct Ha as (_ & E & _)); try (now apply adv_depth).
  apply adv_start in Ha as L. pose proof (txt_length s s' Hs Ha) as El.
  destruct (txt s s') as [|b r] eqn:E; [cbn in El; lia|]. exfalso.
  inversion_clear Hb as [|? ? Hb0 _]. pose proof (remaining_split s s' Hs Ha) as Er. rewrite E in Er.
  rewrite Er in H. destruct H as [H|[H|[H _]]]; cbn in H; try discriminate; injection H as ->; discriminate.
Qed.

(** * Definition lists *)

Definition tq (s s' : span) (c : container) : Prop :=
  exists sm, adv s sm /\ adv sm s' /\ txt sm s' = bs "::" /\ sp_start s < sp_start sm /\
    cok (S (sp_depth s)) (sp_start s) c (sp_start sm) /\ no_nl (txt s sm) /\ absent (bs "::") (txt s sm).

Lemma GP_term n :
  GP n edge (terminated
     (map_parser
        (verify (take_line_until1 (bs "::"))
           (fun sp => negb (starts_with (bs "%%") (remaining (trim_start sp)))))
        (container_inner uri_parse date_parse))
     (tag (bs "::"))) tq.
Proof.
  intros s Hs Hn He. unfold terminated. eapply R_bind.
  - apply (GP_cov_container n edge _ (fun s s' => absent (bs "::") (txt s s'))); auto.
    apply GP_of_G. eapply G_weaken.
    + apply G_verify, (G_take_line_until1 n (bs "::") ltac:(discriminate) ltac:(cbn; lia) eq_refl).
    + cbv beta. intros t t' o Ht Ha ((-> & (Hnl & Hst) & Hlt) & _). split; auto. split; auto.
      apply (line_stop_absent _ _ _ _ Ht Ha Hst); [cbn; auto | discriminate].
  - cbv beta. intros s1 c Ha1 (Hc & Hlt & Hnl & Habs). assert (Hs1 : sok s1) by eauto using adv_sok.
    assert (Hn1 : remaining_len s1 < n) by (pose proof (adv_rl _ _ Hs Ha1); lia).
    gbind (G_tag n (bs "::") ltac:(asc_lit)) as s2 x Ha2 Hs2 Hn2 (Et & _). rok.
    exists s1. auto 10.
Qed.

Definition diq (s s' : span) (c : container) : Prop :=
  def_inline_ok uri_parse date_parse inner bd (sp_depth s) (sp_start s) (sp_start s') c /\
  (remaining s' = [] \/ at_eol (remaining s') 0).

Lemma G_def_inline n :
  G n (preceded space1 (map_parser take_until_end_of_line_or_input (container_inner uri_parse date_parse))) diq.
Proof.
  intros s Hs Hn. unfold preceded.
  gbind (G_space1 n) as s1 x Ha1 Hs1 Hn1 (_ & Hb & Hnx & Hlt).
  assert (He : edge s1) by (apply (edge_space1 s); auto).
  eapply R_weaken.
  - apply (GP_cov_container n edge take_until_end_of_line_or_input
             (fun s s' => line_stop [] (remaining s) (sp_start s' - sp_start s))); auto.
    apply GP_of_G. apply G_take_until_eol.
  - cbv beta. intros s2 c Ha2 (Hc & Hlt2 & Hnl & Hst). split.
    + exists (txt s s1), (txt s1 s2).
      split; [change (text (sp_start s) (sp_start s2)) with (txt s s2); now apply txt_app|].
      split; auto. split; [now apply blanks_ne|]. split; [now apply no_lead_next|]. split; auto.
      rewrite txt_length by auto. replace (sp_start s + _) with (sp_start s1) by lia.
      now rewrite <- (adv_depth _ _ Ha1).
    + eapply line_stop_nil_next; [| |exact Hst]; auto.
Qed.

Definition tlq (s s' : span) (r : located container * option (located container)) : Prop :=
  exists s1 s2 s3, adv s s1 /\ adv s1 s2 /\ adv s2 s3 /\ adv s3 s' /\
    blanks (txt s s1) /\ l_reg (fst r) = reg s1 s2 /\ tq s1 s2 (l_val (fst r)) /\ bole s' /\
    match snd r with
    | None => s3 = s2 /\ exists a e, txt s2 s' = a ++ e /\ blanks a /\ (lok s -> eol_at inner (sp_start s') e)
    | Some x => l_reg x = reg s2 s3 /\ diq s2 s3 (l_val x) /\ (lok s -> eol_at inner (sp_start s') (txt s3 s'))
    end.

Lemma GP_term_line n : GP n edge (term_line uri_parse date_parse) tlq.
Proof.
  intros s Hs Hn He. unfold term_line.
  gbind (G_space0 n) as s1 x Ha1 Hs1 Hn1 (_ & Hb & _ & _).
  assert (He1 : edge s1) by (apply (edge_space0 s); auto).
  eapply R_bind; [apply (GP_located_p n edge _ _ (GP_term n)); auto|].
  cbv beta. intros s2 term Ha2 (Hreg & Htq). assert (Hs2 : sok s2) by eauto using adv_sok.
  assert (Hn2 : remaining_len s2 < n) by (pose proof (adv_rl _ _ Hs1 Ha2); lia).
  gbind (G_opt n _ _ (G_located_p n _ _ (G_def_inline n))) as s3 def Ha3 Hs3 Hn3 Hdef.
  gbind (G_pair n _ _ _ _ (G_space0 n) (G_end_of_line_or_input n)) as s4 y Ha4 Hs4 Hn4
    (s3' & B1 & B2 & (_ & Hb3 & _) & Heol). rok.
  assert (Hs3' : sok s3') by eauto using adv_sok.
  exists s1, s2, s3. repeat (split; [assumption|]). cbn [fst snd].
  split; [now apply (bole_eol s3')|]. destruct def as [d|].
  - destruct Hdef as [Hr Hd]. split; auto. split; auto.
    assert (s3' = s3) by (apply space0_at_eol; auto; apply Hd). subst s3'. intro; apply eoli_eol_at; eauto 8 using lok_adv.
  - destruct Hdef as [-> _]. split; auto. exists (txt s2 s3'), (txt s3' s4).
    split; [now apply txt_app|]. split; auto. intro; apply eoli_eol_at; eauto 8 using lok_adv.
Qed.

Definition dlq (s s' : span) (x : located container) : Prop :=
  l_reg x = reg s s' /\
  (lok s -> def_line_ok uri_parse date_parse inner bd (sp_depth s) (sp_start s) (sp_start s') (l_val x)) /\
  sp_start s < sp_start s' /\ bole s'.

Lemma G_definition_line n : G n (definition_line uri_parse date_parse) dlq.
Proof.
  unfold definition_line. eapply G_weaken; [apply (G_located_p n _ (fun s s' c =>
    (lok s -> def_line_ok uri_parse date_parse inner bd (sp_depth s) (sp_start s) (sp_start s') c) /\
    sp_start s < sp_start s' /\ bole s'))|].
  2: { cbv beta. intros s s' x _ _ [H1 H2]. split; auto. }
  intros s Hs Hn.
  gbind (G_space0 n) as s1 x1 Ha1 Hs1 Hn1 (_ & Hb1 & _ & _).
  gbind (G_tag n (bs "::") ltac:(asc_lit)) as s2 x2 Ha2 Hs2 Hn2 (Et & _).
  gbind (G_space1 n) as s3 x3 Ha3 Hs3 Hn3 (_ & Hb3 & Hnx & Hlt).
  assert (He : edge s3) by (apply (edge_space1 s2); auto).
  eapply R_bind.
  { apply (GP_cov_container n edge take_until_end_of_line_or_input
             (fun s s' => line_stop [] (remaining s) (sp_start s' - sp_start s))); auto.
    apply GP_of_G. apply G_take_until_eol. }
  cbv beta. intros s4 c Ha4 (Hc & Hlt4 & Hnl & Hst). assert (Hs4 : sok s4) by eauto using adv_sok.
  assert (Hn4 : remaining_len s4 < n) by (pose proof (adv_rl _ _ Hs3 Ha4); lia).
  gbind (G_end_of_line_or_input n) as s5 u Ha5 Hs5 Hn5 Heol. rok.
  apply adv_start in Ha1 as L1. apply adv_start in Ha2 as L2. apply adv_start in Ha5 as L5.
  split; [|split; [lia | now apply (bole_eol s4)]]. intro Hl.
  exists (txt s s1), (txt s2 s3), (txt s3 s4), (txt s4 s5).
  split.
  { change (text (sp_start s) (sp_start s5)) with (txt s s5).
    rewrite (txt_app s s1 s5), (txt_app s1 s2 s5), (txt_app s2 s3 s5), (txt_app s3 s4 s5), Et
      by eauto 8 using adv_trans. reflexivity. }
  split; auto. split; auto. split; [now apply blanks_ne|]. split; [now apply no_lead_next|].
  split; auto. split; [apply eoli_eol_at; eauto 8 using lok_adv|]. cbv zeta.
  pose proof (txt_length s1 s2 Hs1 Ha2) as L2'. rewrite Et in L2'. cbn [length] in L2'.
  rewrite !txt_length by auto.
  replace (sp_start s + (sp_start s1 - sp_start s) + 2 + (sp_start s3 - sp_start s2)) with (sp_start s3).
  2: { change (length (bs "::")) with 2 in L2'. lia. }
  replace (sp_start s3 + (sp_start s4 - sp_start s3)) with (sp_start s4) by lia.
  replace (sp_depth s) with (sp_depth s3); auto.
  now rewrite (adv_depth _ _ Ha3), (adv_depth _ _ Ha2), (adv_depth _ _ Ha1).
Qed.

Definition tdq (s s' : span) (p : located container * located (list (located container))) : Prop :=
  sp_start s < sp_start s' /\
  (lok s -> term_defs_ok uri_parse date_parse inner bd (sp_depth s) (sp_start s) (sp_start s') (def_item p)) /\
  bole s'.

Lemma steps_bole {A} (Q : span -> span -> A -> Prop) s l s' :
  (forall s s' a, Q s s' a -> bole s') -> bole s -> steps Q s l s' -> bole s'.
Proof. intros H Hb Hst. induction Hst; eauto. Qed.

Lemma GP_term_and_definitions n : GP n edge (term_and_definitions uri_parse date_parse) tdq.
Proof.
  intros s Hs Hn He. unfold term_and_definitions.
  eapply R_bind; [apply (GP_term_line n); auto|].
  cbv beta. intros sb [term odef] Hab (s1 & s2 & s3 & A1 & A2 & A3 & A4 & Hb1 & Hreg & Htq & Hbole & Hdef).
  cbn [fst snd] in *. assert (Hsb : sok sb) by eauto using adv_sok.
  assert (Hnb : remaining_len sb < n) by (pose proof (adv_rl _ _ Hs Hab); lia).
  gbind (G_located_p n _ _ (G_verify n _ _ _ (G_many0 n _ _ (G_definition_line n))))
    as se bundle Hae Hse Hne (Hbr & (Hst & _) & Hv). rok.
  destruct Htq as (sm & B1 & B2 & Ecol & Hlt & Hc & Hnl & Habs).
  assert (S1 : sok s1) by eauto using adv_sok. assert (S2 : sok s2) by eauto using adv_sok.
  assert (S3 : sok s3) by eauto using adv_sok. assert (Sm : sok sm) by eauto using adv_sok.
  apply adv_start in A1 as L1. apply adv_start in A3 as L3. apply adv_start in A4 as L4.
  apply adv_start in Hae as Le.
  pose proof (txt_length sm s2 Sm B2) as Lc. rewrite Ecol in Lc. change (length (bs "::")) with 2 in Lc.
  assert (D1 : sp_depth s1 = sp_depth s) by now apply adv_depth.
  assert (D2 : sp_depth s2 = sp_depth s) by (rewrite <- D1; now apply adv_depth).
  assert (Db : sp_depth sb = sp_depth s) by now apply adv_depth.
  split; [lia|]. split; [|revert Hbole Hst; apply steps_bole; intros ? ? ? K; apply K].
  intro Hl.
  assert (Hch : chain bd exact exact (def_line_ok uri_parse date_parse inner bd (sp_depth s)) (sp_depth s)
                  (sp_start sb) (l_val bundle) (sp_start se)).
  { rewrite <- Db. apply (steps_chain_depth (fun d lo hi c => def_line_ok uri_parse date_parse inner bd d lo hi c)
      exact (fun t t' x => lok t /\ dlq t t' x) sb (l_val bundle) se); auto; [|reflexivity|].
    - intros t t' x (K0 & K1 & K2 & _). auto.
    - apply steps_lok; eauto using lok_adv. }
  unfold term_defs_ok, def_item. cbn [l_val l_reg td_term td_defs fst snd].
  rewrite Hreg. cbn [reg r_off r_len r_depth].
  replace (sp_start s1 + (sp_start s2 - sp_start s1)) with (sp_start s2) by lia.
  replace (sp_start s2 - 2) with (sp_start sm) by lia.
  assert (Hbreg : forall P : region -> Prop, P (reg sb se) ->
    P (l_reg match odef with Some d => Loc (d :: l_val bundle) (l_reg bundle) | None => bundle end)).
  { intros P HP. destruct odef; cbn [l_reg]; now rewrite Hbr. }
  assert (Eb : l_reg match odef with Some d => Loc (d :: l_val bundle) (l_reg bundle) | None => bundle end
               = reg sb se) by (apply (Hbreg (fun r => r = reg sb se)); reflexivity).
  rewrite Eb. cbn [reg r_off r_len r_depth].
  split; [lia|]. split; [exact Hb1|]. split; [lia|]. split; [exact D1|].
  do 4 (split; [eauto using sok_bd|]).
  split; [exact Ecol|]. split; [now rewrite <- D1|]. split; [exact Hnl|]. split; [exact Habs|].
  split; [lia|]. split; [exact Db|]. split; [lia|].
  destruct odef as [d|]; cbn [l_val l_reg].
  - destruct Hdef as (Hdr & [Hd _] & Heol). split; [discriminate|]. split; [|reflexivity].
    left. exists d, (l_val bundle). rewrite Hdr. cbn [reg r_off r_len r_depth].
    replace (sp_start s2 + (sp_start s3 - sp_start s2)) with (sp_start s3) by lia.
    split; auto. split; auto. split; auto. split; [now rewrite <- D2|]. split; auto.
    split; [eauto using sok_bd|]. split; [|exact Hch]. exists (txt s3 sb). auto.
  - destruct Hdef as (-> & a & e & Ee & Ha & Heol). cbn in Hv.
    split; [destruct (l_val bundle); [discriminate Hv | discriminate]|]. split; [|reflexivity].
    right. split; [exists a, e; auto | exact Hch].
Qed.

Lemma steps_def_items s l s' :
  sok s -> lok s -> steps (fun s s' a => tdq (with_deeper s) (with_deeper s') a) s l s' ->
  def_items_ok uri_parse date_parse inner bd (S (sp_depth s)) (sp_start s) (map def_item l) (sp_start s').
Proof.
  intros Hs Hl H. induction H as [s|s s1 s2 a l Hs0 Ha Hlt Hq Hst IH]; [reflexivity|].
  cbn [map def_items_ok]. exists (sp_start s1). split; auto.
  destruct Hq as (_ & Hq & _). specialize (Hq Hl). cbn [with_deeper with_depth sp_start sp_depth] in Hq.
  replace (sp_depth s + 1) with (S (sp_depth s)) in Hq by lia. split; auto.
  rewrite <- (adv_depth _ _ Ha). eauto using adv_sok, lok_adv.
Qed.

Lemma GP_BQ {A} n P top (f : A -> block) (p : parser A) :
  GP n P p (fun s s' a => sp_start s < sp_start s' /\
           (lok s -> bok top (sp_depth s) (sp_start s) (sp_start s') (f a)) /\ bole s') ->
  GP n P (located_p p) (BQ top f).
Proof.
  intro H. eapply GP_weaken; [apply GP_located_p, H | auto |].
  intros s s' x _ _ _ [H1 H2]. split; auto.
Qed.

Lemma GP_definition_list n top : GP n edge (p_definition_list uri_parse date_parse) (BQ top BDefList).
Proof.
  unfold p_definition_list. apply GP_BQ. eapply GP_pmap.
  - apply (GP_many1 n edge _ (fun s s' a => tdq (with_deeper s) (with_deeper s') a)).
    + exact (GP_deeper n edge _ _ (GP_term_and_definitions n)).
    + intros s s' a _ _ _ (_ & _ & H). apply (bole_edge (with_deeper s')). exact H.
    + intros s s' a _ _ (H & _). exact H.
  - cbv beta. intros s s' l Hs He Ha (Hne & Hst & _).
    split; [eapply steps_lt; eauto|]. split.
    + intro Hl. cbn [block_ok]. split; [now destruct l|]. now apply steps_def_items.
    + destruct (steps_last _ _ _ _ Hs Hst Hne) as (t & a & _ & _ & _ & _ & _ & K). exact K.
Qed.

End DefProofs.
