(** Contracts of the top-level block parsers and of the page parser. *)
From Verif Require Import Base ModelSpan ModelComb ModelAst ModelTable ModelLink ModelInline ModelBlock
  SpecDoc SpecBlock ProofBase ProofBytes ProofContract ProofPrim ProofInline ProofLink ProofText
  ProofBlock ProofFence ProofDefs ProofTable ProofList.

Section PageProofs.
Context {EV : env}.
Local Notation inner := (e_inner EV).
Local Notation bd := (e_bd EV).
Local Notation pan := (e_pan EV).
Local Notation uri_parse := (e_uri EV).
Local Notation date_parse := (e_date EV).
Local Notation bok := (block_ok uri_parse date_parse inner bd).
Local Notation text lo hi := (slice lo hi inner).

(** What a top-level element is: its region may stop before the end of its
    line (placeholders). *)
Definition TQ (s s' : span) (x : located block) : Prop :=
  exists sm, adv s sm /\ adv sm s' /\ l_reg x = reg s sm /\ sp_start s < sp_start sm /\
    bol inner (sp_start s) /\ (lok s -> bok true (sp_depth s) (sp_start s) (sp_start sm) (l_val x)) /\
    eol_str (txt sm s') /\ bole s'.

Lemma bole_bol s s' : sok s -> bole s -> adv s s' -> sp_start s < sp_start s' -> bol inner (sp_start s).
Proof. intros Hs [H|H] (_ & _ & _ & _ & H1 & _) Hlt; auto. lia. Qed.

Lemma BQ_TQ {A} (f : A -> block) s s' x : sok s -> bole s -> adv s s' -> BQ true f s s' x -> TQ s s' (lmap f x).
Proof.
  intros Hs Hb Ha (H1 & H2 & H3 & H4). exists s'. assert (Hs' : sok s') by eauto using adv_sok.
  split; auto. split; [now apply adv_refl|]. split; auto. split; auto.
  split; [now apply (bole_bol s s')|]. split; auto. split; auto. rewrite txt_same by auto. now left.
Qed.

Lemma PQ_TQ s s' x : sok s -> bole s -> adv s s' -> PQ s s' x -> TQ s s' (lmap BPlaceholder x).
Proof.
  intros Hs Hb Ha (sm & A1 & A2 & H1 & H2 & H3 & H4 & H5 & H6 & H7). exists sm.
  do 5 (split; auto). split; auto. intro Hl. cbn [lmap l_val block_ok]. auto.
Qed.

Lemma GP_top {A} n (p : parser (located A)) (f : A -> block) :
  GP n bole p (BQ true f) -> GP n bole (pmap p (lmap f)) TQ.
Proof. intro H. eapply GP_pmap; [exact H|]. intros. now apply BQ_TQ. Qed.

Lemma GP_top_G {A} n (p : parser (located A)) (f : A -> block) :
  G n p (BQ true f) -> GP n bole (pmap p (lmap f)) TQ.
Proof. intro H. apply GP_top. now apply GP_of_G. Qed.

Lemma GP_bole {A} n (p : parser A) Q : GP n edge p Q -> GP n bole p Q.
Proof. intro H. eapply GP_weaken; [exact H | intros; now apply bole_edge | auto]. Qed.

Lemma G_p_list n : G n (p_list uri_parse date_parse) (BQ true BList).
Proof.
  intros s Hs Hn. unfold p_list.
  apply (G_list (S (remaining_len s)) _ (GP_nested (S (remaining_len s))) true s Hs). lia.
Qed.

Lemma GP_p_paragraph n : GP n edge (p_paragraph uri_parse date_parse) (BQ true BParagraph).
Proof.
  intros s Hs Hn He. unfold p_paragraph.
  apply (GP_paragraph (S (remaining_len s)) _ (GP_nested (S (remaining_len s))) true s Hs); auto.
Qed.

Lemma GP_top_level n : GP n bole (top_level_block_element uri_parse date_parse) TQ.
Proof.
  unfold top_level_block_element. apply GP_alt.
  constructor; [apply GP_top_G, G_header|].
  constructor; [apply GP_top, GP_bole, GP_definition_list|].
  constructor; [apply GP_top_G, G_p_list|].
  constructor; [apply GP_top_G, G_table|].
  constructor; [apply GP_top_G, G_code_block|].
  constructor; [apply GP_top_G, G_math_block|].
  constructor; [apply GP_top_G, G_blockquote|].
  constructor; [apply GP_top_G, G_divider|].
  constructor; [eapply GP_pmap; [apply GP_of_G, G_placeholder|]; intros; now apply PQ_TQ|].
  constructor; [apply GP_top, GP_bole, GP_p_paragraph|]. constructor.
Qed.

Definition MQ (s s' : span) (o : option (located block)) : Prop :=
  bole s' /\ sp_start s < sp_start s' /\
  match o with
  | None => ws_gap inner (sp_start s) (sp_start s')
  | Some x => TQ s s' x
  end.

Lemma ws_blanks_eol a e : blanks a -> eol_str e ->
  Forall (fun b => is_space b = true \/ b = b_nl \/ b = b_cr) (a ++ e).
Proof.
  intros H1 H2. apply Forall_app. split.
  - eapply Forall_impl; [|exact H1]. auto.
  - destruct H2 as [->|[->| ->]]; repeat (constructor; [tauto|]); constructor.
Qed.

Lemma GP_maybe n : GP n bole (maybe_block_element uri_parse date_parse) MQ.
Proof.
  unfold maybe_block_element. apply GP_palt.
  - apply GP_of_G. eapply G_value; [apply G_blank_line|]. cbv beta.
    intros s s' _ Hs Ha (H1 & H2 & a & e & E & K1 & K2 & K3). split; [|split; auto].
    + destruct K2 as [->|[->| ->]].
      * left. auto.
      * right. right. apply (txt_last s s' a b_nl); auto.
      * right. right. apply (txt_last s s' (a ++ [b_cr]) b_nl); auto. now rewrite <- app_assoc.
    + unfold ws_gap. change (slice (sp_start s) (sp_start s') inner) with (txt s s'). rewrite E.
      now apply ws_blanks_eol.
  - eapply GP_pmap; [apply GP_top_level|]. cbv beta. intros s s' x Hs Hb Ha H.
    pose proof H as (sm & A1 & A2 & H1 & H2 & H3 & H4 & H5 & H6).
    apply adv_start in A2 as L. split; auto. split; [lia|]. exact H.
Qed.

(** * Totality *)

Lemma space0_total s : exists s1 o, space0 s = Ok s1 o.
Proof. unfold space0, take_while0, ok_split. eauto. Qed.

Lemma beginning_of_line_ok s : sok s -> bol inner (sp_start s) -> beginning_of_line s = Ok s tt.
Proof. intros Hs Hb. destruct (beginning_of_line_spec s Hs) as [[H _]|[_ H]]; tauto. Qed.

Lemma at_eol_cases l : at_eol l 0 -> exists e r, l = e ++ r /\ (e = [b_nl] \/ e = [b_cr; b_nl]).
Proof.
  destruct l as [|b l]; [intros [H|[H _]]; discriminate|]. intros [H|[H1 H2]].
  - injection H as ->. exists [b_nl], l. auto.
  - injection H1 as ->. destruct l as [|c l]; [discriminate|]. injection H2 as ->.
    exists [b_cr; b_nl], l. auto.
Qed.

Lemma line_ending_at s e r :
  sok s -> remaining s = e ++ r -> (e = [b_nl] \/ e = [b_cr; b_nl]) -> exists s' o, line_ending s = Ok s' o.
Proof.
  intros Hs E [->| ->]; unfold line_ending.
  - destruct (tag_at s nl_str r Hs ascii_nl E) as (s' & o & H & _). unfold palt. rewrite H. eauto.
  - destruct (tag_at s crlf_str r Hs ascii_crlf E) as (s' & o & H & _). unfold palt.
    unfold tag at 1. rewrite E. change (starts_with nl_str ([b_cr; b_nl] ++ r)) with false. cbv iota.
    rewrite H. eauto.
Qed.

(** A blank line is recognised. *)
Lemma blank_line_complete s s1 :
  sok s -> bol inner (sp_start s) -> sp_start s < sp_end s ->
  adv s s1 -> sok s1 -> (exists o, space0 s = Ok s1 o) ->
  remaining s1 = [] \/ at_eol (remaining s1) 0 -> blank_line s <> Err.
Proof.
  intros Hs Hb Hlt Ha Hs1 [o E0] H. unfold blank_line, preceded. rewrite beginning_of_line_ok by auto.
  cbn [bind]. unfold palt. destruct H as [H|H].
  - assert (E1 : space1 s = Ok s1 o).
    { unfold space0, take_while0, space1, take_while1 in *. injection E0 as E1 E2.
      destruct (count_while is_space (remaining s)) as [|k] eqn:Ek.
      - rewrite <- E1, advance_start_eq in H by (auto; lia).
        apply (f_equal (@length _)) in H. rewrite remaining_eq in H.
        + cbn [sp_start sp_end] in H. rewrite slice_length in H; [cbn in H; lia|]. destruct Hs as (_ & _ & L & _). lia.
        + rewrite <- E1 in Hs1. now rewrite advance_start_eq in Hs1 by (auto; lia).
      - unfold ok_split in *. now rewrite E1, E2. }
    destruct (eoli_at s1 [] [] Hs1 H ltac:(auto)) as (s2 & E2 & _).
    unfold terminated. rewrite E1. cbn [bind]. rewrite E2. cbn [bind]. discriminate.
  - destruct (at_eol_cases _ H) as (e & r & Er & He).
    destruct (line_ending_at s1 e r Hs1 Er He) as (s2 & o2 & E2).
    destruct (terminated space1 end_of_line_or_input s) eqn:Et; try discriminate.
    unfold terminated. rewrite E0. cbn [bind]. rewrite E2. discriminate.
Qed.

Lemma preceded_ok_err {A B} (p : parser A) (q : parser B) s s1 a :
  p s = Ok s1 a -> preceded p q s = Err -> q s1 = Err.
Proof. intros H. unfold preceded. rewrite H. auto. Qed.

Lemma located_err_inv {A} (p : parser A) s : located_p p s = Err -> p s = Err.
Proof.
  unfold located_p, locate, capture. destruct (p s) as [s1 a| | |]; cbn [bind]; try discriminate; auto.
  destruct (sp_start s1 <? sp_start s); discriminate.
Qed.

Lemma pnot_of_err {A} (p : parser A) s : p s = Err -> pnot p s = Ok s tt.
Proof. intro H. unfold pnot. now rewrite H. Qed.

(** When every other block parser fails on a non-empty line, the paragraph
    parser does not. *)
Lemma paragraph_total n nested s :
  GP n edge nested NQ -> sok s -> remaining_len s < S n -> bol inner (sp_start s) -> sp_start s < sp_end s ->
  no_other nested s -> paragraph_ uri_parse date_parse nested s <> Err.
Proof.
  intros HN Hs Hn Hb Hlt (E1 & E2 & E3 & E4 & E5 & E6 & E7 & E8 & E9 & E10) H.
  unfold paragraph_ in H. apply located_err_inv in H. rename H into Em. unfold many1 in Em.
  assert (Hc : continue_paragraph_ uri_parse date_parse nested s = Ok s tt).
  { unfold continue_paragraph_.
    rewrite (pnot_of_err _ s E1). cbn [bind]. rewrite (pnot_of_err _ s E2). cbn [bind].
    rewrite (pnot_of_err _ s E3). cbn [bind]. rewrite (pnot_of_err _ s E4). cbn [bind].
    rewrite (pnot_of_err _ s E5). cbn [bind]. rewrite (pnot_of_err _ s E6). cbn [bind].
    rewrite (pnot_of_err _ s E7). cbn [bind]. rewrite (pnot_of_err _ s E8). cbn [bind].
    rewrite (pnot_of_err _ s E9). cbn [bind]. rewrite (pnot_of_err _ s E10). reflexivity. }
  assert (He : edge s) by (apply bole_edge; now right).
  set (p := delimited (continue_paragraph_ uri_parse date_parse nested)
              (paragraph_line uri_parse date_parse) end_of_line_or_input) in *.
  pose proof (GP_para_item n nested HN s Hs Hn He) as Hp. fold p in Hp.
  destruct (p s) as [s1 c| | |] eqn:Ep; cbn [bind] in Em; try discriminate Em.
  - destruct Hp as [Ha Hq]. assert (Hs1 : sok s1) by eauto using adv_sok.
    assert (Hn1 : remaining_len s1 < S n) by (pose proof (adv_rl _ _ Hs Ha); lia).
    pose proof (many0_not_err (S n) edge p plq s1 (GP_para_item n nested HN)
      ltac:(intros t t' a _ _ _ (_ & K & _); now apply bole_edge)
      ltac:(intros t t' a _ _ (K & _); exact K) Hs1 Hn1
      ltac:(destruct Hq as (_ & K & _); now apply bole_edge)) as Hm.
    destruct (many0 p s1); cbn [bind] in Em; congruence.
  - clear Em Hp. unfold p, delimited, preceded, terminated in Ep. rewrite Hc in Ep. cbn [bind] in Ep.
    pose proof (GP_paragraph_line (S n) s Hs Hn He) as Hl.
    destruct (paragraph_line uri_parse date_parse s) as [s2 c| | |] eqn:El; cbn [bind] in Ep; try discriminate Ep.
    + destruct Hl as [Ha (s1 & _ & _ & _ & _ & _ & _ & Hend)].
      assert (Hs2 : sok s2) by eauto using adv_sok.
      assert (Hx : exists s3, end_of_line_or_input s2 = Ok s3 tt).
      { destruct Hend as [Hend|Hend].
        - destruct (eoli_at s2 [] [] Hs2 Hend ltac:(auto)) as (s3 & E & _). eauto.
        - destruct (at_eol_cases _ Hend) as (e & r & Er & Hee).
          destruct (eoli_at s2 e r Hs2 Er ltac:(tauto)) as (s3 & E & _). eauto. }
      destruct Hx as [s3 Ex]. rewrite Ex in Ep. discriminate Ep.
    + clear Hl Ep. unfold paragraph_line in El. destruct (space0_total s) as (s1 & o & E0).
      rewrite E0 in El. cbn [bind] in El.
      pose proof (G_space0 (S n) s Hs Hn) as H0. rewrite E0 in H0. destruct H0 as [Ha (_ & Hbl & _)].
      assert (Hs1 : sok s1) by eauto using adv_sok.
      apply pmap_err_inv in El.
      pose proof (container_total s1 Hs1 (edge_space0 s s1 Hs Ha Hbl He) El) as Hend.
      apply (blank_line_complete s s1 Hs Hb Hlt Ha Hs1 ltac:(eauto) Hend E7).
Qed.

Lemma palt_err {A} (p q : parser A) s : palt p q s = Err -> p s = Err /\ q s = Err.
Proof. unfold palt. destruct (p s); intro H; try discriminate; auto. Qed.

Lemma maybe_total s : sok s -> bole s -> maybe_block_element uri_parse date_parse s = Err -> sp_start s = sp_end s.
Proof.
  intros Hs Hb H. destruct Hb as [Hb|Hb]; auto.
  destruct (Nat.eq_dec (sp_start s) (sp_end s)) as [|Hne]; auto. exfalso.
  assert (Hlt : sp_start s < sp_end s) by (destruct Hs as (_ & ? & _); lia).
  unfold maybe_block_element in H. apply palt_err in H as [H1 H2].
  apply pmap_err_inv in H1. apply pmap_err_inv in H2.
  unfold top_level_block_element in H2. apply alt_err in H2.
  repeat match goal with K : Forall _ (_ :: _) |- _ =>
    let K1 := fresh "K" in let K2 := fresh "K" in inversion K as [|? ? K1 K2]; subst; clear K; apply pmap_err_inv in K1
  end.
  unfold p_blockquote in *.
  match goal with K : palt _ _ s = Err |- _ => apply palt_err in K as [? ?] end.
  match goal with K : p_paragraph _ _ s = Err |- _ => unfold p_paragraph in K; revert K end.
  apply (paragraph_total (S (remaining_len s))); auto using GP_nested. unfold no_other. auto 12.
Qed.

(** * The page *)

Lemma ws_gap_app lo mid hi : lo <= mid -> mid <= hi -> ws_gap inner lo mid -> ws_gap inner mid hi -> ws_gap inner lo hi.
Proof. intros L1 L2 H1 H2. unfold ws_gap in *. rewrite (slice_app lo mid hi) by lia. now apply Forall_app. Qed.

Lemma ws_eol s s' : eol_str (txt s s') -> ws_gap inner (sp_start s) (sp_start s').
Proof.
  intro H. unfold ws_gap. change (slice (sp_start s) (sp_start s') inner) with (txt s s').
  apply (ws_blanks_eol [] (txt s s')); auto. constructor.
Qed.

Lemma steps_page s l s' lo :
  sok s -> lok s -> sp_depth s = 0 -> sp_start s' = length inner -> lo <= sp_start s -> ws_gap inner lo (sp_start s) ->
  steps MQ s l s' ->
  chain bd (ws_gap inner) (fun lo hi => lo <= hi /\ ws_gap inner lo hi)
    (fun lo hi b => bol inner lo /\ bok true 0 lo hi b) 0 lo (flatten_opt l) (length inner).
Proof.
  intros Hs Hl Hd He Hlo Hg H. revert lo Hlo Hg.
  induction H as [s|s s1 s2 a l Hs0 Ha Hlt Hq Hst IH]; intros lo Hlo Hg.
  - cbn. rewrite <- He. auto.
  - assert (Hs1 : sok s1) by eauto using adv_sok. assert (Hd1 : sp_depth s1 = 0) by (rewrite (adv_depth _ _ Ha); auto).
    pose proof (lok_adv _ _ Ha Hl) as Hl1. destruct Hq as (_ & _ & Hq). destruct a as [x|]; cbn [flatten_opt flat_map app].
    + destruct Hq as (sm & A1 & A2 & H1 & H2 & H3 & H4 & H5 & H6).
      assert (Hsm : sok sm) by eauto using adv_sok. apply adv_start in A2 as L2.
      cbn [chain]. rewrite H1. cbn [reg r_off r_len r_depth].
      replace (sp_start s + (sp_start sm - sp_start s)) with (sp_start sm) by lia.
      specialize (H4 Hl). rewrite Hd in H4.
      split; auto. split; auto. split; auto. split; [lia|]. split; [eauto using sok_bd|]. split; auto.
      apply IH; auto. now apply ws_eol.
    + apply IH; auto; [lia|]. apply (ws_gap_app lo (sp_start s)); auto; lia.
Qed.

(** The page parser on the whole input. *)
Theorem page_contract :
  bd (length inner) ->
  match parse_page uri_parse date_parse inner with
  | Ok s p => sp_start s = length inner /\ sp_end s = length inner /\ page_ok uri_parse date_parse inner bd p
  | Err => False
  | Panic => pan
  | OutOfFuel => False
  end.
Proof.
  intro Hbd. unfold parse_page, p_page, pmap, all_consuming.
  set (s := span_of inner).
  assert (Hs : sok s).
  { unfold s, span_of, sok. cbn. repeat split; auto. lia. apply e_bd_0. }
  assert (Hb : bole s) by (right; left; reflexivity).
  assert (HP : forall t t' a, sok t -> bole t -> adv t t' -> MQ t t' a -> bole t')
    by (intros t t' a _ _ _ (K & _); exact K).
  pose proof (GP_many0 (S (remaining_len s)) bole _ MQ (GP_maybe _) HP s Hs ltac:(lia) Hb) as HM.
  pose proof (many0_not_err (S (remaining_len s)) bole _ MQ s (GP_maybe _) HP
    ltac:(intros t t' a _ _ (_ & K & _); exact K) Hs ltac:(lia) Hb) as HE.
  unfold R in HM. destruct (many0 (maybe_block_element uri_parse date_parse) s) as [s1 l| | |]; cbn [bind]; try tauto.
  destruct HM as [Ha (Hst & Herr & Hb1)]. assert (Hs1 : sok s1) by eauto using adv_sok.
  pose proof (maybe_total s1 Hs1 Hb1 Herr) as Hend.
  assert (Hr : remaining s1 = []).
  { rewrite remaining_eq by auto. rewrite Hend. apply slice_nil. lia. }
  assert (Hsl : sp_end s1 = length inner) by (destruct Ha as (_ & -> & _); reflexivity).
  rewrite rl_eq by auto. rewrite Hend, Nat.sub_diag. cbn [Nat.eqb bind].
  split; [lia|]. split; [lia|]. unfold page_ok. apply (steps_page s l s1 0); auto; try lia; [now left|].
  unfold ws_gap. rewrite slice_nil by (cbn; lia). constructor.
Qed.

End PageProofs.
