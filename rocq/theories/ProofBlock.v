(** Contracts of the single-line and fenced block parsers. *)
From Verif Require Import Base ModelSpan ModelComb ModelAst ModelLink ModelInline ModelBlock
  SpecDoc SpecBlock ProofBase ProofBytes ProofContract ProofPrim ProofInline ProofLink ProofText.

Section BlockProofs.
Context {EV : env}.
Local Notation inner := (e_inner EV).
Local Notation bd := (e_bd EV).
Local Notation pan := (e_pan EV).
Local Notation uri_parse := (e_uri EV).
Local Notation date_parse := (e_date EV).
Local Notation bok := (block_ok uri_parse date_parse inner bd).
Local Notation cok := (container_ok uri_parse date_parse inner bd).

(** At the beginning of a line, or at the end of the span. *)
Definition bole (s : span) : Prop := sp_start s = sp_end s \/ bol inner (sp_start s).

Lemma bole_edge s : bole s -> edge s.
Proof.
  intros [H|[H|H]]; [now left | right; now left |]. right. right. left. exists b_nl. auto.
Qed.

Lemma bole_eol s s' :
  sok s -> adv s s' ->
  (s' = s /\ sp_start s = sp_end s) \/ txt s s' = [b_nl] \/ txt s s' = [b_cr; b_nl] -> bole s'.
Proof.
  intros Hs Ha [[-> H]|[H|H]]; [now left | |]; right; right.
  - apply (txt_last s s' [] b_nl); auto.
  - apply (txt_last s s' [b_cr] b_nl); auto.
Qed.

Lemma bole_deeper s : bole (with_deeper s) <-> bole s.
Proof. reflexivity. Qed.

(** The span ends where a line does. *)
Definition lok (s : span) : Prop := sp_end s = length inner \/ bol inner (sp_end s).

Lemma lok_adv s s' : adv s s' -> lok s -> lok s'.
Proof. intros (_ & E & _). unfold lok. now rewrite E. Qed.

Lemma eoli_eol_at s s' :
  lok s -> (s' = s /\ sp_start s = sp_end s) \/ txt s s' = [b_nl] \/ txt s s' = [b_cr; b_nl] ->
  eol_at inner (sp_start s') (txt s s').
Proof.
  intros Hl [[-> H]|[H|H]]; unfold eol_at; auto. right. right. split; [now apply txt_same|].
  rewrite H. exact Hl.
Qed.

Lemma steps_lok {A} (Q : span -> span -> A -> Prop) s l s' :
  lok s -> steps Q s l s' -> steps (fun t t' x => lok t /\ Q t t' x) s l s'.
Proof.
  intros Hl H. induction H as [s|s s1 s2 a l Hs0 Ha Hlt Hq Hst IH]; [constructor|].
  econstructor; eauto using lok_adv.
Qed.

(** What a block parser yields. *)
Definition BQ {A} (top : bool) (f : A -> block) (s s' : span) (x : located A) : Prop :=
  l_reg x = reg s s' /\ sp_start s < sp_start s' /\
  (lok s -> bok top (sp_depth s) (sp_start s) (sp_start s') (f (l_val x))) /\ bole s'.

Lemma G_BQ {A} n top (f : A -> block) (p : parser A) :
  G n p (fun s s' a => sp_start s < sp_start s' /\
           (lok s -> bok top (sp_depth s) (sp_start s) (sp_start s') (f a)) /\ bole s') ->
  G n (located_p p) (BQ top f).
Proof. intro H. eapply G_weaken; [apply G_located_p, H|]. intros s s' x _ _ [H1 H2]. split; auto. Qed.

(** Shortened spans. *)
Definition pre (s : span) (k : nat) : span := Span inner (sp_start s) (sp_start s + k) (sp_depth s).

Lemma pre_sok s k : sok s -> k <= remaining_len s -> bd (sp_start s + k) -> sok (pre s k).
Proof.
  intros Hs Hk Hb. rewrite rl_eq in Hk by auto. destruct Hs as (H1 & H2 & H3 & H4 & H5).
  repeat split; cbn; auto; lia.
Qed.

Lemma remaining_pre s k : sok s -> k <= remaining_len s -> remaining (pre s k) = firstn k (remaining s).
Proof. intros Hs Hk. rewrite firstn_remaining by auto. reflexivity. Qed.

Lemma advance_end_pre s k : sok s -> advance_end_by k s = pre s k.
Proof. intros (H & _). unfold advance_end_by, pre. now rewrite H. Qed.

(** The trailing blanks of a string. *)
Definition trail (l : str) : nat := count_while is_space (rev l).

Lemma trail_spec l :
  exists a b, l = a ++ b /\ length b = trail l /\ blanks b /\ no_trail a.
Proof.
  unfold trail. set (k := count_while is_space (rev l)).
  assert (Hk : k <= length l) by (rewrite <- rev_length; apply count_while_le).
  exists (firstn (length l - k) l), (skipn (length l - k) l).
  split; [now rewrite firstn_skipn|]. split; [rewrite skipn_length; lia|].
  assert (Er : rev l = rev (skipn (length l - k) l) ++ rev (firstn (length l - k) l)).
  { rewrite <- rev_app_distr. now rewrite firstn_skipn. }
  assert (El : length (rev (skipn (length l - k) l)) = k) by (rewrite rev_length, skipn_length; lia).
  split.
  - pose proof (count_while_forall is_space (rev l)) as H. fold k in H. rewrite Er in H.
    rewrite firstn_app, El, Nat.sub_diag, firstn_O, app_nil_r, firstn_all2 in H by lia.
    apply Forall_rev in H. now rewrite rev_involutive in H.
  - intros b r E. apply (count_while_stop is_space (rev l)). fold k.
    rewrite Er, E, rev_app_distr, nth_error_app2 by lia. now rewrite El, Nat.sub_diag.
Qed.

Lemma trim_trailing_eq s :
  sok s -> exists k, trim_trailing_whitespace s = Ok (pre s k) tt /\ k <= remaining_len s /\
    sok (pre s k) /\ exists b, remaining s = remaining (pre s k) ++ b /\ blanks b /\
    no_trail (remaining (pre s k)).
Proof.
  intro Hs. unfold trim_trailing_whitespace, rest_len, count_trailing_whitespace. cbn [bind].
  destruct (trail_spec (remaining s)) as (a & b & E & Hl & Hb & Ha). fold (trail (remaining s)).
  rewrite advance_end_pre by auto.
  assert (Hlen : length (remaining s) = remaining_len s) by (rewrite remaining_length, rl_eq by auto; auto).
  assert (Hk : remaining_len s - trail (remaining s) = length a).
  { rewrite <- Hlen. rewrite E at 1. rewrite app_length. lia. }
  exists (remaining_len s - trail (remaining s)). split; auto. split; [lia|].
  rewrite Hk in *.
  assert (Hrem : remaining (pre s (length a)) = a).
  { rewrite remaining_pre by (auto; lia). rewrite E, firstn_app, firstn_all, Nat.sub_diag. apply app_nil_r. }
  rewrite Hrem. split.
  - apply pre_sok; auto; [lia|]. apply bd_rel; auto. destruct b as [|c b].
    + right. left. rewrite E, app_nil_r. auto.
    + right. right. left. exists c. inversion Hb; subst. split; auto using is_space_ascii.
      rewrite E, nth_error_app2, Nat.sub_diag by lia. reflexivity.
  - exists b. auto.
Qed.

Lemma forallb_repeat c l : forallb (beqb c) l = true -> l = repeat c (length l).
Proof.
  induction l as [|b l IH]; cbn; auto. intro H. apply andb_true_iff in H as [H1 H2].
  apply beqb_eq in H1. subst b. f_equal. auto.
Qed.

Lemma take_end_eq s k s1 o :
  sok s -> take_end k s = Ok s1 o -> exists m, m + k = remaining_len s /\ s1 = pre s m /\
    remaining s = remaining (pre s m) ++ remaining o /\ length (remaining o) = k /\
    o = Span inner (sp_start s + m) (sp_end s) (sp_depth s).
Proof.
  intros Hs H. unfold take_end in H. destruct (remaining_len s <? k) eqn:E; [discriminate|].
  apply Nat.ltb_ge in E. rewrite advance_end_pre, advance_start_eq in H by (auto; lia).
  injection H as <- <-. exists (remaining_len s - k). split; [lia|]. split; auto.
  rewrite remaining_pre by (auto; lia). unfold remaining at 3 4. cbn [sp_start sp_end sp_inner].
  assert (E2 : slice (sp_start s + (remaining_len s - k)) (sp_end s) inner
               = skipn (remaining_len s - k) (remaining s)).
  { rewrite remaining_eq by auto. now rewrite skipn_slice_app. }
  rewrite E2, firstn_skipn. split; auto. rewrite skipn_length, remaining_length by auto.
  rewrite rl_eq in * by auto. split; [lia|auto].
Qed.

Lemma no_trail_last l b r : no_trail l -> l = r ++ [b] -> is_space b = false.
Proof. intros H E. eapply H; eauto. Qed.

(** * Containers in a shortened span *)

Lemma container_in o :
  sok o -> edge o -> no_nl (remaining o) ->
  R o (container_inner uri_parse date_parse o)
    (fun o' c => cok (S (sp_depth o)) (sp_start o) c (sp_end o) /\ sp_start o < sp_end o).
Proof.
  intros Ho He Hn. unfold container_inner, pmap.
  eapply R_bind; [apply (GP_container (S (remaining_len o)) o Ho ltac:(lia) He)|].
  cbv beta. intros o1 x Ha (_ & Hlt & Hok & Hstop).
  assert (Ho1 : sok o1) by eauto using adv_sok.
  rok. assert (E : sp_start o1 = sp_end o).
  { assert (Hr : remaining o1 = []).
    { destruct Hstop as [|Hs]; auto. exfalso. apply at_eol_nl in Hs. apply Hn.
      rewrite (remaining_split o o1) by auto. apply in_or_app. auto. }
    apply (f_equal (@length _)) in Hr. rewrite remaining_length in Hr by auto. cbn in Hr.
    destruct Ha as (_ & E & _ & _ & ? & _). rewrite E in Hr. lia. }
  rewrite <- E. auto.
Qed.

Lemma edge_sub s o : edge s -> sp_start o = sp_start s -> sp_end o <= sp_end s -> sok o -> edge o.
Proof. intros [H|H] E He (_ & Ho & _); [left; lia | right; now rewrite E]. Qed.

(** The edge after some blanks. *)
Lemma edge_space0 s s1 : sok s -> adv s s1 -> blanks (txt s s1) -> edge s -> edge s1.
Proof.
  intros Hs Ha Hb He. destruct (list_eq_dec byte_eq_dec (txt s s1) []) as [E|E].
  - apply (f_equal (@length _)) in E. rewrite txt_length in E by auto. cbn in E.
    apply adv_start in Ha as Hle. apply (edge_sub s); auto; [lia | | eauto using adv_sok].
    destruct Ha as (_ & -> & _). lia.
  - destruct (exists_last E) as (l & b & El). eapply edge_ws; eauto.
    rewrite El in Hb. apply Forall_app in Hb as [_ Hb]. inversion Hb; subst. now apply is_space_ws.
Qed.

Lemma edge_space1 s s1 : sok s -> adv s s1 -> blanks (txt s s1) -> sp_start s < sp_start s1 -> edge s1.
Proof.
  intros Hs Ha Hb Hlt. destruct (list_eq_dec byte_eq_dec (txt s s1) []) as [E|E].
  - apply (f_equal (@length _)) in E. rewrite txt_length in E by auto. cbn in E. lia.
  - destruct (exists_last E) as (l & b & El). eapply edge_ws; eauto.
    rewrite El in Hb. apply Forall_app in Hb as [_ Hb]. inversion Hb; subst. now apply is_space_ws.
Qed.

Lemma no_lead_next s s' : sok s -> adv s s' -> (forall b, next s = Some b -> is_space b = false) ->
  no_lead (txt s s').
Proof.
  intros Hs Ha H b r E. apply H. unfold next. rewrite (remaining_split s s') by auto. now rewrite E.
Qed.

Lemma txt_is_nil s s' : sok s -> adv s s' -> is_nil (txt s s') = (sp_start s' =? sp_start s).
Proof.
  intros Hs Ha. pose proof (txt_length s s' Hs Ha) as H. apply adv_start in Ha.
  destruct (txt s s'); cbn in *; symmetry; [apply Nat.eqb_eq | apply Nat.eqb_neq]; lia.
Qed.

Lemma non_empty_cov_eq s s' : sok s -> adv s s' -> non_empty (cov s s') = negb (is_nil (txt s s')).
Proof.
  intros Hs Ha. unfold non_empty, sp_is_empty. rewrite rl_eq by (now apply cov_sok).
  rewrite txt_is_nil by auto. cbn [cov sp_start sp_end]. apply adv_start in Ha. f_equal.
  destruct (sp_start s' =? sp_start s) eqn:E.
  - apply Nat.eqb_eq in E. apply Nat.eqb_eq. lia.
  - apply Nat.eqb_neq in E. apply Nat.eqb_neq. lia.
Qed.

(** * Headers *)

Definition htq (level : nat) (s s' : span) (c : container) : Prop :=
  exists w1 t w2 f,
    txt s s' = (w1 ++ t ++ w2) ++ repeat x3d level ++ f /\
    blanks w1 /\ blanks w2 /\ blanks f /\ no_nl t /\ no_lead t /\ no_trail t /\
    (forall r, w1 ++ t ++ w2 <> x3d :: r) /\ (forall r, w1 ++ t ++ w2 <> r ++ [x3d]) /\
    cok (S (sp_depth s)) (sp_start s + length w1) c (sp_start s + length w1 + length t).

Lemma peek_ok {A} (p : parser A) s s1 a : peek p s = Ok s1 a -> s1 = s /\ exists s2, p s = Ok s2 a.
Proof. unfold peek. destruct (p s) as [s2 x| | |]; cbn; intro H; try discriminate. injection H as <- <-. eauto. Qed.
Lemma verify_ok {A} (p : parser A) f s s1 a : verify p f s = Ok s1 a -> p s = Ok s1 a /\ f a = true.
Proof.
  unfold verify. destruct (p s) as [s2 x| | |]; cbn; intro H; try discriminate.
  destruct (f x) eqn:E; [|discriminate]. injection H as <- <-. auto.
Qed.

Lemma take_end_res s k : match take_end k s with Ok _ _ | Err => True | _ => False end.
Proof. unfold take_end. destruct (_ <? _); auto. Qed.
Lemma take_res s k : match take k s with Ok _ _ | Err => True | _ => False end.
Proof. unfold take. destruct (_ <=? _); unfold ok_split; auto. Qed.
Lemma verify_res {A} (p : parser A) f s :
  match p s with Ok _ _ | Err => True | _ => False end ->
  match verify p f s with Ok _ _ | Err => True | _ => False end.
Proof. unfold verify. destruct (p s); cbn; auto. now destruct (f _). Qed.
Lemma peek_res {A} (p : parser A) s :
  match p s with Ok _ _ | Err => True | _ => False end ->
  match peek p s with Ok _ _ | Err => True | _ => False end.
Proof. unfold peek. destruct (p s); cbn; auto. Qed.

Lemma G_header_tail n level :
  0 < level ->
  forall s, sok s -> remaining_len s < n -> seam (sp_start s) ->
  R s (header_tail uri_parse date_parse level s) (htq level s).
Proof.
  intros Hlev s Hs Hn Hseam. unfold header_tail.
  gbind (G_take_until_eol n) as s1 rol Ha Hs1 Hn1 (-> & Hnl & _).
  set (rol := cov s s1). assert (Hrol : sok rol) by now apply cov_sok.
  assert (Erol : remaining rol = txt s s1) by now apply remaining_cov.
  destruct (trim_trailing_eq rol Hrol) as (k1 & E1 & Hk1 & Hr1 & f & Ef & Hf & _). rewrite E1.
  cbn [bind]. set (rol1 := pre rol k1) in *.
  pose proof (verify_res _ (fun e => forallb (beqb x3d) (remaining e)) _ (take_end_res rol1 level)) as Hres.
  destruct (verify (take_end level) _ rol1) as [rol2 eqs| | |] eqn:E2; cbn [bind]; try contradiction; [|exact I].
  clear Hres. apply verify_ok in E2 as [E2 Heq].
  destruct (take_end_eq _ _ _ _ Hr1 E2) as (m & Hm & -> & Em & Elen & Eo).
  apply forallb_repeat in Heq. rewrite Elen in Heq.
  assert (Hr2 : sok (pre rol1 m)).
  { apply pre_sok; auto; [lia|]. apply (e_bd_at EV _ x3d); [|reflexivity].
    assert (E3 : nth_error (remaining eqs) 0 = Some x3d) by (rewrite Heq; destruct level; [lia|reflexivity]).
    rewrite Eo in E3. unfold remaining in E3. cbn [sp_start sp_end sp_inner] in E3.
    destruct (slice (sp_start rol1 + m) (sp_end rol1) inner) as [|b r] eqn:E4; [discriminate|].
    apply slice_cons in E4 as (E4 & _). cbn in E3. congruence. }
  set (rol2 := pre rol1 m) in *.
  match goal with |- context [peek ?p rol2] =>
    pose proof (peek_res p rol2 (verify_res _ _ _ (take_res rol2 1))) as Hres;
    destruct (peek p rol2) as [rol3 o3| | |] eqn:E3 end; cbn [bind]; try contradiction; [|exact I].
  clear Hres. apply peek_ok in E3 as [-> (x3 & E3)]. apply verify_ok in E3 as [E3 Hfirst].
  match goal with |- context [peek ?p rol2] =>
    pose proof (peek_res p rol2 (verify_res _ _ _ (take_end_res rol2 1))) as Hres;
    destruct (peek p rol2) as [rol4 o4| | |] eqn:E4 end; cbn [bind]; try contradiction; [|exact I].
  clear Hres. apply peek_ok in E4 as [-> (x4 & E4)]. apply verify_ok in E4 as [E4 Hlast].
  assert (F1 : forall r, remaining rol2 <> x3d :: r).
  { intros r Er. unfold take in E3. destruct (1 <=? remaining_len rol2) eqn:El; [|discriminate].
    apply Nat.leb_le in El. unfold ok_split in E3. injection E3 as _ <-.
    rewrite advance_end_pre, remaining_pre, Er in Hfirst by auto. discriminate Hfirst. }
  assert (F2 : forall r, remaining rol2 <> r ++ [x3d]).
  { intros r Er. destruct (take_end_eq _ _ _ _ Hr2 E4) as (m4 & Hm4 & _ & Em4 & El4 & _).
    destruct (remaining o4) as [|b [|]] eqn:Eo4; try discriminate.
    rewrite Er in Em4. apply app_inj_tail in Em4 as [_ <-]. discriminate Hlast. }
  unfold trim_whitespace. pose proof (G_space0 (S (remaining_len rol2)) rol2 Hr2 ltac:(lia)) as HS.
  unfold R in HS. destruct (space0 rol2) as [r2a w| | |]; cbn [bind]; try contradiction; [|exact I | exact HS].
  destruct HS as [Ha2 (_ & Hw1 & Hw1n & _)]. assert (Hr2a : sok r2a) by eauto using adv_sok.
  destruct (trim_trailing_eq r2a Hr2a) as (k5 & E5 & Hk5 & Hr5 & w2 & Ew2 & Hw2 & Ht). rewrite E5.
  cbn [bind]. set (rol5 := pre r2a k5) in *.
  assert (Ebody : remaining rol2 = txt rol2 r2a ++ remaining rol5 ++ w2).
  { rewrite (remaining_split rol2 r2a) by auto. now rewrite Ew2. }
  assert (Etxt : txt s s1 = (txt rol2 r2a ++ remaining rol5 ++ w2) ++ repeat x3d level ++ f).
  { rewrite <- Erol, Ef, Em, Ebody, Heq. now rewrite <- !app_assoc. }
  assert (Hst5 : sp_start rol5 = sp_start s + length (txt rol2 r2a)).
  { rewrite txt_length by auto. apply adv_start in Ha2. cbn in *. lia. }
  assert (Hnl5 : no_nl (remaining rol5)).
  { rewrite Etxt in Hnl. apply no_nl_app in Hnl as [Hnl _]. apply no_nl_app in Hnl as [_ Hnl].
    now apply no_nl_app in Hnl. }
  assert (He5 : edge rol5).
  { apply (edge_sub r2a); auto.
    - apply (edge_space0 rol2); auto. right. exact Hseam.
    - cbn. rewrite rl_eq in Hk5 by auto. destruct Hr2a as (_ & ? & _). lia. }
  pose proof (container_in rol5 Hr5 He5 Hnl5) as HC. unfold R in HC.
  destruct (container_inner uri_parse date_parse rol5) as [r6 c| | |]; cbn [bind]; auto.
  destruct HC as [_ [HC Hlt]]. rok.
  exists (txt rol2 r2a), (remaining rol5), w2, f. split; [exact Etxt|].
  rewrite <- Ebody. repeat (split; [assumption|]).
  split. { intros b r E. apply Hw1n. unfold next. rewrite Ew2, E. reflexivity. }
  split; auto. split; auto. split; auto.
  replace (sp_depth rol5) with (sp_depth s) in HC.
  2: { cbn. destruct Ha2 as (_ & _ & -> & _). reflexivity. }
  rewrite <- Hst5. rewrite remaining_length by auto.
  replace (sp_start rol5 + (sp_end rol5 - sp_start rol5)) with (sp_end rol5) by lia. exact HC.
Qed.

Lemma G_run_len n c :
  is_ascii c = true -> c <> b_nl -> c <> b_cr ->
  G n (pmap (take_line_while1 (pchar c)) remaining_len)
    (fun s s' k => txt s s' = repeat c k /\ k = sp_start s' - sp_start s).
Proof.
  intros H1 H2 H3. eapply G_pmap; [apply G_take_line_while1; auto|]. cbv beta.
  intros t t' o Ht Ha (-> & Hr & Hlt). rewrite rl_eq by (now apply cov_sok).
  cbn [cov sp_start sp_end]. split; auto. now apply run_repeat.
Qed.

Lemma G_header n : G n (p_header uri_parse date_parse) (BQ true BHeader).
Proof.
  apply G_BQ. intros s Hs Hn.
  gbind (G_beginning_of_line n) as s1 x Ha1 Hs1 Hn1 (-> & Hbol).
  gbind (G_pmap n space0 non_empty _ (fun s s' b => blanks (txt s s') /\ b = negb (is_nil (txt s s')))
           (G_space0 n) ltac:(intros t t' o Ht Hta (-> & Hb & _); split; auto using non_empty_cov_eq))
    as s2 cen Ha2 Hs2 Hn2 (Hsp & ->).
  gbind (G_verify n _ _ _ (G_run_len n x3d eq_refl ltac:(discriminate) ltac:(discriminate)))
    as s3 level Ha3 Hs3 Hn3 ((Hlev & Hlev2) & Hrange).
  apply andb_true_iff in Hrange as [R1 R2]. apply Nat.leb_le in R1, R2. unfold min_level, max_level in *.
  assert (Hseam : seam (sp_start s3)).
  { right. right. right. left. exists x3d. split; [|reflexivity].
    apply (txt_last s2 s3 (repeat x3d (level - 1)) x3d); auto. rewrite Hlev.
    replace level with (level - 1 + 1) at 1 by lia. now rewrite repeat_app. }
  unfold pmap. eapply R_bind.
  { eapply R_bind; [apply (G_header_tail n level ltac:(lia) s3 Hs3 Hn3 Hseam)|].
    cbv beta. intros s4 c Ha4 Hc. apply R_ok; [apply adv_refl; eauto using adv_sok|].
    instantiate (1 := fun s4 h => h = Header (h_content h) level (negb (is_nil (txt s s2))) /\
                                  htq level s3 s4 (h_content h)). cbv beta. auto. }
  cbv beta. intros s4 h Ha4 [Eh Hh]. assert (Hs4 : sok s4) by eauto using adv_sok.
  pose proof (adv_rl _ _ Hs3 Ha4).
  eapply G_bind; [apply (G_end_of_line_or_input n) | auto | lia |].
  cbv beta. intros s5 u Ha5 Hs5 Hn5 He. rok.
  destruct Hh as (w1 & t & w2 & f & Et & B1 & B2 & B3 & B4 & B5 & B6 & B7 & B8 & Hc).
  assert (E2 : length (txt s s2) = sp_start s2 - sp_start s) by now apply txt_length.
  apply adv_start in Ha2 as L2. apply adv_start in Ha3 as L3. apply adv_start in Ha4 as L4.
  apply adv_start in Ha5 as L5.
  split; [lia|]. split; [|now apply (bole_eol s4)]. intro Hl.
  cbn [block_ok]. rewrite Eh. cbn [h_level h_centered h_content] in *.
  split; [exact Hbol|]. split; [cbn; lia|].
  exists (txt s s2), w1, t, w2, f, (txt s4 s5). cbn [h_level h_centered h_content].
  split.
  { change (slice (sp_start s) (sp_start s5) inner) with (txt s s5).
    rewrite (txt_app s s2 s5), (txt_app s2 s3 s5), (txt_app s3 s4 s5) by eauto using adv_trans.
    rewrite Hlev, Et. now rewrite <- !app_assoc. }
  repeat (split; [first [assumption | apply eoli_eol_at; eauto 8 using lok_adv | reflexivity]|]).
  replace (sp_start s + length (txt s s2) + level) with (sp_start s3) by lia.
  replace (sp_depth s3) with (sp_depth s) in Hc; auto.
  destruct Ha3 as (_ & _ & -> & _). destruct Ha2 as (_ & _ & -> & _). reflexivity.
Qed.

(** * Dividers *)

Lemma G_divider n : G n p_divider (BQ true (fun _ => BDivider)).
Proof.
  apply G_BQ. intros s Hs Hn.
  gbind (G_beginning_of_line n) as s1 x Ha1 Hs1 Hn1 (-> & Hbol).
  gbind (G_verify n _ _ _ (G_take_line_while1 n x2d eq_refl ltac:(discriminate) ltac:(discriminate)))
    as s2 o Ha2 Hs2 Hn2 ((-> & Hrun & Hlt) & Hlen).
  gbind (G_end_of_line_or_input n) as s3 u Ha3 Hs3 Hn3 He. rok.
  apply Nat.leb_le in Hlen. rewrite rl_eq in Hlen by (now apply cov_sok). cbn in Hlen.
  apply adv_start in Ha3 as L3.
  split; [lia|]. split; [|now apply (bole_eol s2)]. intro Hl. cbn [block_ok]. split; auto.
  exists (sp_start s2 - sp_start s), (txt s2 s3). split; auto. split.
  - change (slice (sp_start s) (sp_start s3) inner) with (txt s s3).
    rewrite (txt_app s s2 s3) by auto. f_equal. now apply run_repeat.
  - apply eoli_eol_at; eauto using lok_adv.
Qed.

(** * Placeholders *)

(** The region of a placeholder stops before the end of its line. *)
Definition PQ (s s' : span) (x : located placeholder) : Prop :=
  exists sm, adv s sm /\ adv sm s' /\ l_reg x = reg s sm /\ sp_start s < sp_start sm /\
    bol inner (sp_start s) /\
    placeholder_text_ok date_parse (l_val x) (txt s sm) /\ eol_str (txt sm s') /\
    (lok s -> line_ends inner (sp_start sm)) /\ bole s'.

Lemma G_placeholder_text n :
  G n placeholder_text (fun s s' t => t = txt s s' /\ no_nl (txt s s')).
Proof.
  unfold placeholder_text. eapply G_weaken; [apply (G_cow_cov _ (fun s s' => no_nl (txt s s')))|].
  - eapply G_weaken; [apply G_verify, G_take_until_eol|].
    cbv beta. intros s s' o _ _ ((-> & H & _) & _). auto.
  - auto.
Qed.

Lemma blanks_ne s s' : sok s -> adv s s' -> sp_start s < sp_start s' -> txt s s' <> [].
Proof.
  intros Hs Ha Hlt E. apply (f_equal (@length _)) in E. rewrite txt_length in E by auto. cbn in E. lia.
Qed.

Lemma tag_err_starts t s : tag t s = Err -> starts_with t (remaining s) = false.
Proof. unfold tag, ok_split. destruct (starts_with t (remaining s)); [discriminate | auto]. Qed.

Lemma starts_with_app_r t l r : starts_with t l = true -> starts_with t (l ++ r) = true.
Proof. intro H. apply starts_with_spec in H as [x ->]. apply starts_with_spec. exists (x ++ r). now rewrite app_assoc. Qed.

Definition pq (s s' : span) (p : placeholder) : Prop :=
  sp_start s < sp_start s' /\ placeholder_text_ok date_parse p (txt s s').

(** "%name", blanks, text. *)
Lemma tag_lt t s s1 : sok s -> adv s s1 -> txt s s1 = t -> t <> [] -> sp_start s < sp_start s1.
Proof.
  intros Hs Ha E Hne. apply (txt_lt s s1 t); auto. destruct t; [congruence | cbn; lia].
Qed.

Lemma G_placeholder_title n : G n placeholder_title pq.
Proof.
  intros s Hs Hn. unfold placeholder_title.
  gbind (G_tag n (bs "%title") ltac:(asc_lit)) as s1 x1 Ha1 Hs1 Hn1 (Et & _).
  gbind (G_space1 n) as s2 x2 Ha2 Hs2 Hn2 (_ & Hsp & Hnx & Hlt).
  gbind (G_placeholder_text n) as s3 t Ha3 Hs3 Hn3 (-> & Hnl). rok.
  apply adv_start in Ha1 as L1. apply adv_start in Ha3 as L3.
  split; [lia|]. exists (txt s1 s2).
  split; [rewrite (txt_app s s1 s3), (txt_app s1 s2 s3), Et by eauto using adv_trans; reflexivity|].
  split; auto. split; [now apply blanks_ne|]. split; auto. apply no_lead_next; auto.
Qed.

Lemma G_placeholder_template n : G n placeholder_template pq.
Proof.
  intros s Hs Hn. unfold placeholder_template.
  gbind (G_tag n (bs "%template") ltac:(asc_lit)) as s1 x1 Ha1 Hs1 Hn1 (Et & _).
  gbind (G_space1 n) as s2 x2 Ha2 Hs2 Hn2 (_ & Hsp & Hnx & Hlt).
  gbind (G_placeholder_text n) as s3 t Ha3 Hs3 Hn3 (-> & Hnl). rok.
  apply adv_start in Ha1 as L1. apply adv_start in Ha3 as L3.
  split; [lia|]. exists (txt s1 s2).
  split; [rewrite (txt_app s s1 s3), (txt_app s1 s2 s3), Et by eauto using adv_trans; reflexivity|].
  split; auto. split; [now apply blanks_ne|]. split; auto. apply no_lead_next; auto.
Qed.

Lemma G_placeholder_nohtml n : G n placeholder_nohtml pq.
Proof.
  intros s Hs Hn. unfold placeholder_nohtml.
  gbind (G_tag n (bs "%nohtml") ltac:(asc_lit)) as s1 x1 Ha1 Hs1 Hn1 (Et & _).
  gbind (G_space0 n) as s2 x2 Ha2 Hs2 Hn2 (_ & Hsp & _). rok.
  pose proof (tag_lt _ _ _ Hs Ha1 Et ltac:(discriminate)). apply adv_start in Ha2 as L2.
  split; [lia|]. exists (txt s1 s2). split; auto. now rewrite (txt_app s s1 s2), Et by auto.
Qed.

Lemma G_placeholder_date n : G n (placeholder_date date_parse) pq.
Proof.
  intros s Hs Hn. unfold placeholder_date.
  gbind (G_tag n (bs "%date") ltac:(asc_lit)) as s1 x1 Ha1 Hs1 Hn1 (Et & _).
  gbind (G_space1 n) as s2 x2 Ha2 Hs2 Hn2 (_ & Hsp & Hnx & Hlt).
  gbind (G_map_opt n _ (fun sp => date_parse (remaining sp)) _ (G_take_until_eol n))
    as s3 d Ha3 Hs3 Hn3 (o & (-> & Hnl & _) & Hd). rok.
  rewrite remaining_cov in Hd by auto.
  apply adv_start in Ha1 as L1. apply adv_start in Ha3 as L3.
  split; [lia|]. exists (txt s1 s2), (txt s2 s3).
  split; [rewrite (txt_app s s1 s3), (txt_app s1 s2 s3), Et by eauto using adv_trans; reflexivity|].
  split; auto. split; [now apply blanks_ne|]. split; auto. split; auto. apply no_lead_next; auto.
Qed.

Lemma G_pnot_tag n t : ascii_str t ->
  G n (pnot (tag t)) (fun s s' _ => s' = s /\ starts_with t (remaining s) = false).
Proof.
  intro H. eapply G_weaken; [apply (G_pnot n _ _ (G_tag n t H))|].
  cbv beta. intros s s' _ _ _ [E1 E2]. split; auto using tag_err_starts.
Qed.

Lemma G_placeholder_other n : G n placeholder_other pq.
Proof.
  intros s Hs Hn. unfold placeholder_other.
  gbind (G_pnot_tag n (bs "%title") ltac:(asc_lit)) as t1 x1 A1 B1 C1 (-> & N1).
  gbind (G_pnot_tag n (bs "%nohtml") ltac:(asc_lit)) as t1 x2 A2 B2 C2 (-> & N2).
  gbind (G_pnot_tag n (bs "%template") ltac:(asc_lit)) as t1 x3 A3 B3 C3 (-> & N3).
  gbind (G_pnot_tag n (bs "%date") ltac:(asc_lit)) as t1 x4 A4 B4 C4 (-> & N4).
  gbind (G_tag n (bs "%") ltac:(asc_lit)) as s1 x5 Ha1 Hs1 Hn1 (Et & _).
  gbind (G_cow_cov _ _ (G_take_line_until_three1 n (bs " ") [b_tab] (bs "%") ltac:(discriminate)
          ltac:(discriminate) ltac:(discriminate) eq_refl eq_refl eq_refl))
    as s2 name Ha2 Hs2 Hn2 (-> & (Hnl & Hst) & Hlt).
  gbind (G_space1 n) as s3 x6 Ha3 Hs3 Hn3 (_ & Hsp & Hnx & Hlt3).
  gbind (G_placeholder_text n) as s4 t Ha4 Hs4 Hn4 (-> & Hnl4). rok.
  apply adv_start in Ha1 as L1. apply adv_start in Ha4 as L4.
  split; [lia|]. exists (txt s2 s3).
  split; [rewrite (txt_app s s1 s4), (txt_app s1 s2 s4), (txt_app s2 s3 s4), Et by eauto using adv_trans; reflexivity|].
  split; auto. split; [now apply blanks_ne|]. split; auto. split; [apply no_lead_next; auto|].
  split; [now apply blanks_ne|]. split.
  - apply Forall_forall. intros b Hb.
    assert (K1 : b <> x20).
    { intros ->. revert Hb. apply (line_stop_no_char _ s1 s2 x20 Hs1 Ha2 Hst). cbn. auto. }
    assert (K2 : b <> b_tab).
    { intros ->. revert Hb. apply (line_stop_no_char _ s1 s2 b_tab Hs1 Ha2 Hst). cbn. auto. }
    split; [destruct b; try reflexivity; exfalso; auto|]. split.
    + intros ->. now apply Hnl.
    + intros ->. revert Hb. apply (line_stop_no_char _ s1 s2 x25 Hs1 Ha2 Hst). cbn. auto.
  - assert (K : forall k, starts_with (bs "%" ++ k) (remaining s) = false ->
                          starts_with k (txt s1 s2) = false).
    { intros k Hk. destruct (starts_with k (txt s1 s2)) eqn:E; auto.
      rewrite (remaining_split s s1), (remaining_split s1 s2), Et in Hk by auto.
      rewrite <- Hk. cbn [bs String.list_byte_of_string app starts_with].
      symmetry. apply (starts_with_app_r k (txt s1 s2) (remaining s2)) in E. exact E. }
    repeat (constructor; [apply K; assumption|]). constructor.
Qed.

Lemma G_placeholder n : G n (p_placeholder date_parse) PQ.
Proof.
  intros s Hs Hn. unfold p_placeholder.
  gbind (G_beginning_of_line n) as s1 x Ha1 Hs1 Hn1 (-> & Hbol).
  gbind (G_located_p n _ _ (G_alt n [placeholder_title; placeholder_nohtml; placeholder_template;
           placeholder_date date_parse; placeholder_other] pq
           ltac:(repeat constructor; auto using G_placeholder_title, G_placeholder_nohtml,
              G_placeholder_template, G_placeholder_date, G_placeholder_other)))
    as s2 p Ha2 Hs2 Hn2 (Hr & Hlt & Hp).
  gbind (G_end_of_line_or_input n) as s3 u Ha3 Hs3 Hn3 He. rok.
  exists s2. repeat (split; [assumption|]). 
  split; [now apply eoli_eol_str|]. split; [|now apply (bole_eol s2)].
  intro Hl. exists (txt s2 s3). rewrite txt_length by auto. apply adv_start in Ha3 as L3.
  replace (sp_start s2 + (sp_start s3 - sp_start s2)) with (sp_start s3) by lia.
  split; [reflexivity|]. apply eoli_eol_at; eauto using lok_adv.
Qed.

(** * Blockquotes *)

Lemma steps_last {A} (Q : span -> span -> A -> Prop) s l s' :
  sok s -> steps Q s l s' -> l <> [] ->
  exists t a, sok t /\ adv t s' /\ sp_start t < sp_start s' /\ Q t s' a.
Proof.
  intros Hs H. induction H as [s|s s1 s2 a l Hs0 Ha Hlt Hq Hst IH]; [congruence|]. intros _.
  destruct l as [|b l].
  - inversion Hst; subst. eauto 8.
  - apply IH; [eauto using adv_sok | discriminate].
Qed.

Lemma steps_lt {A} (Q : span -> span -> A -> Prop) s l s' :
  sok s -> steps Q s l s' -> l <> [] -> sp_start s < sp_start s'.
Proof.
  intros Hs H Hne. inversion H as [|? s1 ? ? ? K0 K1 K2 K3 K4]; subst; [congruence|].
  pose proof (steps_adv _ _ _ _ (adv_sok _ _ K0 K1) K4) as K7. apply adv_start in K7. lia.
Qed.

Definition iq (s s' : span) (t : str) : Prop :=
  exists a e, txt s s' = a ++ t ++ e /\ blanks a /\ 4 <= length a /\ no_nl t /\ no_lead t /\
              (lok s -> eol_at inner (sp_start s') e) /\ sp_start s < sp_start s' /\ bole s'.

Lemma G_quote_text n :
  G n (map_parser (verify not_line_ending (fun sp => negb (is_only_whitespace sp))) cow_str)
    (fun s s' t => t = txt s s' /\ no_nl (txt s s')).
Proof.
  apply (G_cow_cov _ (fun s s' => no_nl (txt s s'))).
  eapply G_weaken; [apply G_verify, G_not_line_ending|].
  cbv beta. intros s s' o _ _ ((-> & H & _) & _). auto.
Qed.

Lemma G_indented_line n : G n indented_blockquote_line iq.
Proof.
  intros s Hs Hn. unfold indented_blockquote_line.
  gbind (G_verify n _ _ _ (G_space0 n)) as s1 x1 Ha1 Hs1 Hn1 ((-> & Hsp & Hnx & _) & Hlen).
  gbind (G_quote_text n) as s2 t Ha2 Hs2 Hn2 (-> & Hnl).
  gbind (G_end_of_line_or_input n) as s3 u Ha3 Hs3 Hn3 He. rok.
  apply Nat.leb_le in Hlen. rewrite rl_eq in Hlen by (now apply cov_sok). cbn in Hlen.
  apply adv_start in Ha2 as L2. apply adv_start in Ha3 as L3.
  exists (txt s s1), (txt s2 s3).
  split; [rewrite (txt_app s s1 s3), (txt_app s1 s2 s3) by eauto using adv_trans; reflexivity|].
  split; auto. split; [rewrite txt_length; auto|]. split; auto. split; [apply no_lead_next; auto|].
  split; [intro; apply eoli_eol_at; eauto using lok_adv|]. split; [lia | now apply (bole_eol s2)].
Qed.

Lemma G_indented n top : G n indented_blockquote (BQ top BBlockquote).
Proof.
  apply G_BQ. eapply G_weaken; [apply (G_many1_steps n _ iq (G_indented_line n))|].
  - intros s s' a _ _ (? & ? & _ & _ & _ & _ & _ & _ & H & _). exact H.
  - cbv beta. intros s s' l Hs Ha (Hne & Hst & _).
    split; [eapply steps_lt; eauto|]. split.
    2: { destruct (steps_last _ _ _ _ Hs Hst Hne) as (t & a & _ & _ & _ & K).
         now destruct K as (? & ? & _ & _ & _ & _ & _ & _ & _ & K). }
    intro Hl. cbn [block_ok]. left. split; [exact Hne|]. clear Hne.
    induction Hst as [s|s s1 s2 a l Hs0 Ha0 Hlt Hq Hst IH]; [reflexivity|].
    pose proof (adv_sok _ _ Hs0 Ha0) as Hs1. pose proof (lok_adv _ _ Ha0 Hl) as Hl1.
    destruct Hq as (x & e & Ex & K1 & K2 & K3 & K4 & K5 & _).
    cbn [indented_rows]. exists x, e, (sp_start s1).
    split; [exact Ex|]. split; [rewrite <- Ex, txt_length by auto; lia|].
    repeat (split; [solve [auto]|]). apply IH; auto. eapply steps_adv; eauto.
Qed.

Definition aq (s s' : span) (t : str) : Prop :=
  exists a e, txt s s' = a ++ bs "> " ++ t ++ e /\ blanks a /\ no_nl t /\
              (lok s -> eol_at inner (sp_start s') e) /\ sp_start s < sp_start s' /\ bole s'.

Lemma G_arrow_line n : G n arrow_blockquote_line aq.
Proof.
  intros s Hs Hn. unfold arrow_blockquote_line.
  gbind (G_space0 n) as s1 x1 Ha1 Hs1 Hn1 (_ & Hsp & _).
  gbind (G_tag n (bs "> ") ltac:(asc_lit)) as s2 x2 Ha2 Hs2 Hn2 (Et & _).
  gbind (G_cow_cov _ _ (G_not_line_ending n)) as s3 t Ha3 Hs3 Hn3 (-> & Hnl & _).
  gbind (G_end_of_line_or_input n) as s4 u Ha4 Hs4 Hn4 He. rok.
  pose proof (tag_lt _ _ _ Hs1 Ha2 Et ltac:(discriminate)).
  apply adv_start in Ha1 as L1. apply adv_start in Ha3 as L3. apply adv_start in Ha4 as L4.
  exists (txt s s1), (txt s3 s4).
  split; [rewrite (txt_app s s1 s4), (txt_app s1 s2 s4), (txt_app s2 s3 s4), Et by eauto using adv_trans; reflexivity|].
  split; auto. split; auto. split; [intro; apply eoli_eol_at; eauto 8 using lok_adv|]. split; [lia | now apply (bole_eol s3)].
Qed.

Lemma arrow_rows_app lo r1 mid r2 hi :
  arrow_rows inner lo r1 mid -> arrow_rows inner mid r2 hi -> arrow_rows inner lo (r1 ++ r2) hi.
Proof.
  revert lo. induction r1 as [|q r1 IH]; cbn [arrow_rows app]; intros lo H1 H2; [now subst|].
  destruct H1 as (m & K1 & K2 & K3 & K4). exists m. auto.
Qed.

Lemma arrow_row s s' q :
  sok s -> adv s s' -> txt s s' = qrow_text q -> qrow_ok inner (sp_start s') q ->
  arrow_rows inner (sp_start s) [q] (sp_start s').
Proof.
  intros Hs Ha E H. cbn [arrow_rows]. exists (sp_start s'). split; [exact E|].
  apply adv_start in Ha as L. rewrite <- E, txt_length by auto. split; [lia | auto].
Qed.

Lemma steps_arrow s l s' :
  sok s -> lok s -> steps aq s l s' ->
  exists rows, arrow_rows inner (sp_start s) rows (sp_start s') /\
    l = map qrow_val rows /\ Forall is_qline rows.
Proof.
  intros Hs Hl H. induction H as [s|s s1 s2 a l Hs0 Ha Hlt Hq Hst IH].
  - exists []. cbn. auto.
  - pose proof (adv_sok _ _ Hs Ha) as Hs1.
    destruct IH as (rows & E1 & E3 & E4); eauto using lok_adv.
    destruct Hq as (x & e & Ex & K1 & K2 & K3 & _).
    exists (QLine x a e :: rows). split.
    + apply (arrow_rows_app _ [_] (sp_start s1)); auto. apply arrow_row; auto. cbn. auto.
    + split; [cbn; now rewrite E3 | constructor; cbn; auto].
Qed.

Definition blq (s s' : span) (t : str) : Prop :=
  t = [] /\ exists a e, txt s s' = a ++ e /\ blanks a /\ (lok s -> eol_at inner (sp_start s') e).

Lemma G_blank_value n : G n (value ([] : str) blank_line) blq.
Proof.
  eapply G_value; [apply G_blank_line|]. cbv beta.
  intros s s' _ _ Ha (_ & _ & a & e & E & H1 & H2 & H3). split; auto. exists a, e.
  split; auto. split; auto. intro Hl. destruct H2 as [->|[->| ->]]; unfold eol_at; auto.
  right. right. split; auto. rewrite H3 by auto. exact (lok_adv _ _ Ha Hl).
Qed.

Lemma steps_blank s l s' :
  sok s -> lok s -> steps blq s l s' ->
  exists rows, arrow_rows inner (sp_start s) rows (sp_start s') /\ l = map qrow_val rows.
Proof.
  intros Hs Hl H. induction H as [s|s s1 s2 a l Hs0 Ha Hlt Hq Hst IH].
  - exists []. cbn. auto.
  - pose proof (adv_sok _ _ Hs Ha) as Hs1. destruct IH as (rows & E1 & E3); eauto using lok_adv.
    destruct Hq as (-> & x & e & Ex & K1 & K2).
    exists (QBlank x e :: rows). split; [|cbn; now rewrite E3].
    apply (arrow_rows_app _ [_] (sp_start s1)); auto. apply arrow_row; auto. cbn. auto.
Qed.

Definition rows_last (rows : list qrow) : Prop := exists q r, rows = r ++ [q] /\ is_qline q.

Definition grq (s s' : span) (p : list str * str) : Prop :=
  (lok s -> exists rows, arrow_rows inner (sp_start s) rows (sp_start s') /\
    fst p ++ [snd p] = map qrow_val rows /\ rows_last rows) /\ bole s'.

Lemma G_arrow_group n :
  G n (pair (many0 (value ([] : str) blank_line)) arrow_blockquote_line) grq.
Proof.
  eapply G_weaken; [apply (G_pair n _ _ _ _ (G_many0 n _ _ (G_blank_value n)) (G_arrow_line n))|].
  cbv beta. intros s s' [l t] Hs Ha (s1 & Ha1 & Ha2 & (Hst & _) & Hq). cbn [fst snd] in *.
  destruct Hq as (x & e & Ex & K1 & K2 & K3 & _ & K5). split; auto. intro Hl. cbn [fst snd].
  destruct (steps_blank _ _ _ Hs Hl Hst) as (rows & E1 & E3).
  exists (rows ++ [QLine x t e]). split; [|split].
  - apply (arrow_rows_app _ _ (sp_start s1)); auto. apply arrow_row; eauto using adv_sok. cbn. eauto using lok_adv.
  - now rewrite map_app, E3.
  - eexists _, rows. split; [reflexivity | exact I].
Qed.

Lemma steps_groups s l s' :
  sok s -> lok s -> steps grq s l s' ->
  exists rows, arrow_rows inner (sp_start s) rows (sp_start s') /\
    flat_map (fun p => fst p ++ [snd p]) l = map qrow_val rows /\ (rows = [] \/ rows_last rows).
Proof.
  intros Hs Hl H. induction H as [s|s s1 s2 a l Hs0 Ha Hlt Hq Hst IH].
  - exists []. cbn. auto.
  - pose proof (adv_sok _ _ Hs Ha) as Hs1. destruct IH as (rows & E1 & E3 & E4); eauto using lok_adv.
    destruct Hq as (Hq & _). destruct (Hq Hl) as (r0 & F1 & F3 & (q & rr & F4 & F5)).
    exists (r0 ++ rows). split; [|split].
    + now apply (arrow_rows_app _ _ (sp_start s1)).
    + cbn [flat_map]. now rewrite F3, E3, map_app.
    + right. destruct E4 as [->|(q' & r' & -> & K)].
      * rewrite app_nil_r. exists q, rr. auto.
      * exists q', (r0 ++ r'). rewrite app_assoc. auto.
Qed.

Lemma G_arrow n top : G n arrow_blockquote (BQ top BBlockquote).
Proof.
  apply G_BQ. eapply G_pmap.
  - apply G_pair; [apply (G_many1_steps n _ aq (G_arrow_line n))|].
    + intros s s' a _ _ (? & ? & _ & _ & _ & _ & H & _). exact H.
    + apply (G_pmap n _ _ _ (fun s s' l => exists l0, steps grq s l0 s' /\
               l = flat_map (fun p => fst p ++ [snd p]) l0) (G_many0 n _ grq (G_arrow_group n))).
      cbv beta. intros s s' l _ _ [H _]. eauto.
  - cbv beta. intros s s' [l1 l2] Hs Ha (s1 & Ha1 & Ha2 & (Hne & Hst & _) & l0 & Hst2 & ->).
    cbn [fst snd] in *. pose proof (steps_lt _ _ _ _ Hs Hst Hne) as Hlt.
    pose proof (adv_sok _ _ Hs Ha1) as Hs1. apply adv_start in Ha2 as L2.
    split; [lia|]. split.
    + intro Hl. cbn [block_ok]. right.
      destruct (steps_arrow _ _ _ Hs Hl Hst) as (r1 & E1 & E3 & E4).
      destruct (steps_groups _ _ _ Hs1 (lok_adv _ _ Ha1 Hl) Hst2) as (r2 & F1 & F3 & F4).
      exists (r1 ++ r2). split; [now apply (arrow_rows_app _ _ (sp_start s1))|].
      split; [now rewrite E3, F3, map_app|].
      assert (Hr1 : r1 <> []) by (intros ->; now subst l1).
      split.
      * destruct r1 as [|q r1]; [congruence|]. exists q, (r1 ++ r2). inversion E4; auto.
      * destruct F4 as [->|(q & r & -> & K)].
        -- rewrite app_nil_r. destruct (exists_last Hr1) as (r & q & ->). exists q, r. split; auto.
           apply Forall_app in E4 as [_ E4]. now inversion E4.
        -- exists q, (r1 ++ r). rewrite app_assoc. auto.
    + destruct l0 as [|g l0].
      * inversion Hst2; subst. destruct (steps_last _ _ _ _ Hs Hst Hne) as (t & a & _ & _ & _ & K).
        now destruct K as (? & ? & _ & _ & _ & _ & _ & K).
      * destruct (steps_last _ _ _ _ Hs1 Hst2 ltac:(discriminate)) as (t & a & _ & _ & _ & K).
        now destruct K as (_ & K).
Qed.

Lemma G_blockquote n : G n p_blockquote (BQ true BBlockquote).
Proof. apply G_palt; auto using G_indented, G_arrow. Qed.

End BlockProofs.
