(** Contracts of the list, paragraph and block parsers. *)
From Verif Require Import Base ModelSpan ModelComb ModelAst ModelTable ModelLink ModelInline ModelBlock
  SpecDoc SpecBlock ProofBase ProofBytes ProofContract ProofPrim ProofInline ProofLink ProofText
  ProofBlock ProofFence ProofDefs ProofTable.

Section ListProofs.
Context {EV : env}.
Local Notation inner := (e_inner EV).
Local Notation bd := (e_bd EV).
Local Notation pan := (e_pan EV).
Local Notation uri_parse := (e_uri EV).
Local Notation date_parse := (e_date EV).
Local Notation bok := (block_ok uri_parse date_parse inner bd).
Local Notation cok := (container_ok uri_parse date_parse inner bd).
Local Notation text lo hi := (slice lo hi inner).

Lemma G_palt_err {A} n (p q : parser A) Q :
  G n p Q -> (forall s, sok s -> remaining_len s < n -> p s = Err -> R s (q s) (Q s)) -> G n (palt p q) Q.
Proof.
  intros Hp Hq s Hs Hn. specialize (Hp s Hs Hn). specialize (Hq s Hs Hn).
  unfold palt. destruct (p s) eqn:E; [exact Hp | now apply Hq | exact Hp | exact Hp].
Qed.

(** * Prefixes *)

Lemma many1_one_of_err cs s b r :
  sok s -> ascii_str cs -> many1 (one_of cs) s = Err -> remaining s = b :: r -> ~ In b cs.
Proof.
  intros Hs Hc H E Hin. unfold many1 in H.
  pose proof (G_one_of (S (remaining_len s)) cs Hc s Hs ltac:(lia)) as HG. unfold R in HG.
  destruct (one_of cs s) as [s1 x| | |] eqn:E1; cbn [bind] in H; try discriminate.
  - destruct HG as [Ha _]. assert (Hs1 : sok s1) by eauto using adv_sok.
    destruct (many0 (one_of cs) s1) eqn:E2; cbn [bind] in H; try discriminate.
    revert E2. apply (many0_not_err (S (remaining_len s1)) (fun _ => True) (one_of cs)
      (fun s s' a => txt s s' = [a] /\ In a cs)); auto.
    + apply GP_of_G. now apply G_one_of.
    + intros t t' a Ht Hta [Et _]. eapply tag_lt; eauto. discriminate.
  - unfold one_of in E1. rewrite E in E1.
    assert (existsb (beqb b) cs = true) by (apply existsb_exists; exists b; auto using beqb_refl).
    rewrite H0 in E1. discriminate.
Qed.

Lemma G_roman n cs :
  ascii_str cs ->
  G n (many1 (one_of cs)) (fun s s' _ => txt s s' <> [] /\ Forall (fun b => In b cs) (txt s s')).
Proof.
  intro Hc. eapply G_weaken; [apply (G_many1_steps n _ _ (G_one_of n cs Hc))|].
  - intros s s' a Hs Ha [E _]. eapply tag_lt; eauto. discriminate.
  - cbv beta. intros s s' l Hs Ha (Hne & Hst & _).
    split; [apply blanks_ne; auto; eapply steps_lt; eauto|]. clear Hne.
    induction Hst as [s|s s1 s2 a l Hs0 Ha0 Hlt [E Hq] Hst IH].
    + rewrite txt_same by auto. constructor.
    + rewrite (txt_app s s1 s2), E by (auto; eapply steps_adv; eauto using adv_sok).
      constructor; auto. apply IH; [eauto using adv_sok|]. eapply steps_adv; eauto using adv_sok.
Qed.

Lemma roman_lower_ascii : ascii_str roman_lower. Proof. asc_lit. Qed.
Lemma roman_upper_ascii : ascii_str roman_upper. Proof. asc_lit. Qed.

Lemma txt_head s s' b r : sok s -> adv s s' -> txt s s' = b :: r -> remaining s = b :: r ++ remaining s'.
Proof. intros Hs Ha E. rewrite (remaining_split s s' Hs Ha), E. reflexivity. Qed.

Lemma G_label n :
  G n (alt [value ONumber digit1;
            value OLowerRoman (many1 (one_of (bs "ivxlcdm")));
            value OUpperRoman (many1 (one_of (bs "IVXLEDM")));
            value OLowerAlpha (take_while1 is_lower);
            value OUpperAlpha (take_while1 is_upper)])
    (fun s s' o => label_ok o (txt s s') /\ o <> OPound).
Proof.
  cbn [alt]. apply G_palt.
  { eapply G_value; [apply G_digit1|]. cbv beta. intros s s' a Hs Ha (_ & H & _ & Hlt).
    split; [|discriminate]. split; auto. now apply blanks_ne. }
  apply G_palt_err.
  { eapply G_value; [apply (G_roman n _ roman_lower_ascii)|]. cbv beta. intros s s' a Hs Ha [H1 H2].
    split; [|discriminate]. split; auto. }
  intros s Hs Hn E1. apply pmap_err_inv in E1.
  revert s Hs Hn E1. change (forall s, sok s -> remaining_len s < n ->
    (fun s => many1 (one_of roman_lower) s = Err) s ->
    R s (palt (value OUpperRoman (many1 (one_of (bs "IVXLEDM"))))
       (palt (value OLowerAlpha (take_while1 is_lower)) (palt (value OUpperAlpha (take_while1 is_upper)) fail)) s)
      (fun s' o => label_ok o (txt s s') /\ o <> OPound)).
  intros s Hs Hn E1. cbv beta in E1. unfold palt at 1.
  pose proof (G_value n OUpperRoman (many1 (one_of roman_upper)) _
    (fun s s' o => label_ok o (txt s s') /\ o <> OPound) (G_roman n _ roman_upper_ascii)
    ltac:(cbv beta; intros t t' a Ht Ha [H1 H2]; split; [split; auto | discriminate]) s Hs Hn) as H2.
  change (bs "IVXLEDM") with roman_upper.
  destruct (value OUpperRoman (many1 (one_of roman_upper)) s) eqn:E2; auto. clear H2.
  apply pmap_err_inv in E2.
  eapply R_weaken; [refine (G_palt n _ _ (fun t t' o => t = s -> label_ok o (txt t t') /\ o <> OPound) _ _ s Hs Hn)
                   | cbv beta; intros s' a _ H; now apply H].
  - eapply G_value; [apply (G_take_while1 n _ is_lower_ascii)|]. cbv beta.
    intros t t' a Ht Ha (_ & H & _ & Hlt) ->. split; [|discriminate].
    split; [now apply blanks_ne|]. split; auto. intros b r E.
    eapply many1_one_of_err; eauto using roman_lower_ascii. eapply txt_head; eauto.
  - apply G_palt; [|apply G_fail]. eapply G_value; [apply (G_take_while1 n _ is_upper_ascii)|]. cbv beta.
    intros t t' a Ht Ha (_ & H & _ & Hlt) ->. split; [|discriminate].
    split; [now apply blanks_ne|]. split; auto. intros b r E.
    eapply many1_one_of_err; eauto using roman_upper_ascii. eapply txt_head; eauto.
Qed.

Definition pfq (s s' : span) (x : item_ty * suffix) : Prop :=
  prefix_ok (fst x) (snd x) (txt s s') /\ sp_start s < sp_start s' /\ edge s'.

Lemma G_list_item_prefix n : G n list_item_prefix pfq.
Proof.
  unfold list_item_prefix. apply G_palt.
  - unfold unordered_list_item_prefix.
    eapply G_pmap with (Q := fun s s' u => pfq s s' (TUnordered u, SufNone)); [|auto].
    apply G_palt.
    + eapply G_value; [apply (G_tag n (bs "- ") ltac:(asc_lit))|]. cbv beta. intros s s' a Hs Ha [E _].
      split; [split; auto|]. split; [eapply tag_lt; eauto; discriminate|].
      apply (edge_ws s s' [x2d] x20); auto.
    + eapply G_value; [apply (G_tag n (bs "* ") ltac:(asc_lit))|]. cbv beta. intros s s' a Hs Ha [E _].
      split; [split; auto|]. split; [eapply tag_lt; eauto; discriminate|].
      apply (edge_ws s s' [x2a] x20); auto.
  - unfold ordered_list_item_prefix.
    eapply G_pmap with (Q := fun s s' p => pfq s s' (TOrdered (fst p), snd p)); [|auto].
    apply G_palt.
    + eapply G_weaken; [apply (G_pair n _ _ _ (fun s s' f => txt s s' = suffix_str f /\ f <> SufNone) (G_label n))|].
      * apply G_palt.
        -- eapply G_value; [apply (G_tag n (bs ". ") ltac:(asc_lit))|]. cbv beta.
           intros s s' a Hs Ha [E _]. split; [auto | discriminate].
        -- eapply G_value; [apply (G_tag n (bs ") ") ltac:(asc_lit))|]. cbv beta.
           intros s s' a Hs Ha [E _]. split; [auto | discriminate].
      * cbv beta. intros s s' [o f] Hs Ha (s1 & A1 & A2 & [H1 H2] & H3 & H4). cbn [fst snd] in *.
        assert (Hs1 : sok s1) by eauto using adv_sok. apply adv_start in A1 as L1.
        split; [|split].
        -- cbn [fst snd prefix_ok]. exists (txt s s1). split; [rewrite (txt_app s s1 s'), H3 by auto; auto|].
           split; auto. split; intro; contradiction.
        -- assert (sp_start s1 < sp_start s') by (eapply tag_lt; eauto; now destruct f). lia.
        -- destruct f; [congruence| |]; [apply (edge_ws s1 s' [x2e] x20) | apply (edge_ws s1 s' [x29] x20)]; auto.
    + eapply G_weaken; [apply (G_pair n _ _ (fun s s' o => txt s s' = bs "#" /\ o = OPound)
          (fun s s' f => txt s s' = bs " " /\ f = SufNone))|].
      * eapply G_value; [apply (G_tag n (bs "#") ltac:(asc_lit))|]. cbv beta. intros s s' a _ _ [E _]. auto.
      * eapply G_value; [apply (G_tag n (bs " ") ltac:(asc_lit))|]. cbv beta. intros s s' a _ _ [E _]. auto.
      * cbv beta. intros s s' [o f] Hs Ha (s1 & A1 & A2 & [H1 ->] & H3 & ->). cbn [fst snd] in *.
        assert (Hs1 : sok s1) by eauto using adv_sok. apply adv_start in A1 as L1.
        split; [|split].
        -- cbn [fst snd prefix_ok]. exists (bs "#"). split; [rewrite (txt_app s s1 s'), H1, H3 by auto; auto|].
           split; [split; [discriminate | reflexivity]|]. split; auto.
        -- assert (sp_start s1 < sp_start s') by (eapply tag_lt; eauto; discriminate). lia.
        -- apply (edge_ws s1 s' [] x20); auto.
Qed.

Lemma G_todo n :
  G n p_todo_status (fun s s' t => txt s s' = todo_str (Some t) /\ edge s').
Proof.
  intros s Hs Hn. unfold p_todo_status.
  gbind (G_tag n (bs "[") ltac:(asc_lit)) as s1 x1 Ha1 Hs1 Hn1 (E1 & _).
  assert (HA : G n (alt [value TodoIncomplete (tag (bs " ")); value TodoPartial1 (tag (bs "."));
                       value TodoPartial2 (tag (bs "o")); value TodoPartial3 (tag (bs "O"));
                       value TodoComplete (tag (bs "X")); value TodoRejected (tag (bs "-"))])
               (fun s s' t => bs "[" ++ txt s s' ++ bs "] " = todo_str (Some t))).
  { apply G_alt. repeat (constructor; [eapply G_value; [apply G_tag; asc_lit|];
      cbv beta; intros ? ? ? _ _ [-> _]; reflexivity|]). constructor. }
  gbind HA as s2 t Ha2 Hs2 Hn2 E2.
  gbind (G_tag n (bs "] ") ltac:(asc_lit)) as s3 x3 Ha3 Hs3 Hn3 (E3 & _). rok. split.
  - rewrite <- E2, (txt_app s s1 s3), (txt_app s1 s2 s3), E1, E3 by eauto using adv_trans. reflexivity.
  - apply (edge_ws s2 s3 [x5d] x20); auto.
Qed.

(** * Indentation *)

Lemma G_indentation n :
  G n (indentation_level true) (fun s s' k => blanks (txt s s') /\ sp_start s' = sp_start s + k /\
                                               k = count_while is_space (remaining s)).
Proof.
  unfold indentation_level. eapply G_pmap; [apply G_space0|]. cbv beta.
  intros s s' o Hs Ha (-> & Hb & _ & Hst). rewrite rl_eq by (now apply cov_sok).
  cbn [cov sp_start sp_end]. split; auto. lia.
Qed.

Lemma G_peek_indentation n :
  G n (indentation_level false) (fun s s' k => s' = s /\ k = count_while is_space (remaining s)).
Proof.
  unfold indentation_level. eapply G_pmap; [apply G_peek, G_space0|]. cbv beta.
  intros s s' o Hs Ha (-> & s1 & A1 & (-> & Hb & _ & Hst)). rewrite rl_eq by (now apply cov_sok).
  cbn [cov sp_start sp_end]. split; auto. lia.
Qed.

Lemma count_indented s k :
  sok s -> k < count_while is_space (remaining s) -> indented_more inner k (sp_start s).
Proof.
  intros Hs H. exists (firstn (count_while is_space (remaining s)) (remaining s)).
  split; [apply count_while_forall|]. pose proof (count_while_le is_space (remaining s)) as Hle.
  split; [rewrite firstn_length; lia|]. apply starts_with_spec.
  exists (skipn (count_while is_space (remaining s)) (skipn (sp_start s) inner)).
  rewrite <- (firstn_skipn (count_while is_space (remaining s)) (skipn (sp_start s) inner)) at 1. f_equal.
  rewrite remaining_eq in * by auto. unfold slice in *. rewrite firstn_firstn. f_equal.
  rewrite firstn_length in Hle. lia.
Qed.

Lemma GP_indented {A} n k (p : parser A) Q :
  GP n edge p Q ->
  GP n edge (preceded (verify (indentation_level false) (fun l => k <? l)) p)
    (fun s s' a => indented_more inner k (sp_start s) /\ Q s s' a).
Proof.
  intros H s Hs Hn He. unfold preceded.
  gbind (G_verify n _ (fun l => k <? l) _ (G_peek_indentation n)) as s1 l Ha1 Hs1 Hn1 ((-> & ->) & Hk).
  eapply R_weaken; [apply H; auto|]. cbv beta. intros s2 a Ha2 HQ. split; auto.
  apply Nat.ltb_lt in Hk. now apply count_indented.
Qed.

(** * List items *)

Section Nested.
Variable n : nat.
Variable nested : parser (located block).
Definition NQ : span -> span -> located block -> Prop := BQ false (fun b => b).
Hypothesis HN : GP n edge nested NQ.

Definition NQd (s s' : span) (x : located block) : Prop := NQ (with_deeper s) (with_deeper s') x.

Lemma HNd : GP n edge (deeper nested) NQd.
Proof. exact (GP_deeper n edge _ _ HN). Qed.

Definition ltq (k : nat) (s s' : span) (r : option todo_status * list (located block)) : Prop :=
  snd r <> [] /\ bole s' /\ sp_start s < sp_start s' /\
  Forall (fun x => indented_more inner k (r_off (l_reg x))) (tl (snd r)) /\
  exists s1, adv s s1 /\ adv s1 s' /\ txt s s1 = todo_str (fst r) /\
    (lok s -> chain bd exact exact (bok false (S (sp_depth s))) (S (sp_depth s)) (sp_start s1) (snd r) (sp_start s')).

Lemma steps_contents k s l s' :
  sok s -> steps (fun s s' a => indented_more inner k (sp_start s) /\ NQd s s' a) s l s' ->
  Forall (fun x => indented_more inner k (r_off (l_reg x))) l /\
  (lok s -> chain bd exact exact (bok false (S (sp_depth s))) (S (sp_depth s)) (sp_start s) l (sp_start s')).
Proof.
  intros Hs H. induction H as [s|s s1 s2 a l Hs0 Ha Hlt [Hi (Hr & _ & Hq & _)] Hst IH].
  - split; [constructor | reflexivity].
  - destruct IH as [I1 I2]; [eauto using adv_sok|]. cbn [chain]. rewrite Hr.
    cbn [reg with_deeper with_depth sp_start sp_depth r_off r_len r_depth] in *.
    replace (sp_start s + (sp_start s1 - sp_start s)) with (sp_start s1) by lia.
    replace (sp_depth s + 1) with (S (sp_depth s)) in * by lia.
    rewrite (adv_depth _ _ Ha) in I2.
    split; [constructor; auto; rewrite Hr; exact Hi|]. intro Hl. specialize (Hq Hl).
    specialize (I2 (lok_adv _ _ Ha Hl)).
    repeat (split; [first [reflexivity | lia | assumption | solve [split; eauto using sok_bd, adv_bd]]|]). exact I2.
Qed.

Lemma GP_list_item_tail k : GP n edge (list_item_tail_ nested k) (ltq k).
Proof.
  intros s Hs Hn He. unfold list_item_tail_.
  gbind (G_opt n _ _ (G_todo n)) as s1 todo Ha1 Hs1 Hn1 Ht.
  assert (He1 : edge s1) by (destruct todo; [apply Ht | destruct Ht as [-> _]; auto]).
  assert (Et : txt s s1 = todo_str todo).
  { destruct todo; [apply Ht|]. destruct Ht as [-> _]. now apply txt_same. }
  eapply R_bind; [apply HNd; auto|]. cbv beta. intros s2 x Ha2 Hx.
  assert (Hs2 : sok s2) by eauto using adv_sok.
  assert (Hn2 : remaining_len s2 < n) by (pose proof (adv_rl _ _ Hs1 Ha2); lia).
  assert (Hb2 : bole s2) by (destruct Hx as (_ & _ & _ & Hb); exact Hb).
  eapply R_bind.
  { apply (GP_many0 n edge _ (fun s s' a => indented_more inner k (sp_start s) /\ NQd s s' a)); auto.
    - apply GP_indented, HNd.
    - intros t t' a _ _ _ (_ & _ & _ & _ & Hb). apply (bole_edge (with_deeper t')). exact Hb.
    - now apply bole_edge. }
  cbv beta. intros s3 l Ha3 (Hst & _ & _).
  assert (Hs3 : sok s3) by eauto using adv_sok. rok. cbn [fst snd].
  destruct (steps_contents k s2 l s3 Hs2 Hst) as [I1 I2].
  destruct Hx as (Hr & Hlt & Hq & _). cbn [with_deeper with_depth sp_start] in Hlt.
  apply adv_start in Ha1 as L1. apply adv_start in Ha3 as L3.
  split; [discriminate|]. split; [|split; [lia|]].
  { revert Hb2 Hst. apply steps_bole. intros t t' a (_ & _ & _ & _ & Hb). exact Hb. }
  split; [exact I1|]. exists s1. repeat (split; [solve [eauto using adv_trans]|]).
  cbn [snd chain]. rewrite Hr. cbn [reg with_deeper with_depth sp_start sp_depth r_off r_len r_depth] in *.
  replace (sp_start s1 + (sp_start s2 - sp_start s1)) with (sp_start s2) by lia.
  replace (sp_depth s1 + 1) with (S (sp_depth s)) in * by (rewrite (adv_depth _ _ Ha1); lia).
  replace (S (sp_depth s2)) with (S (sp_depth s)) in I2 by (now rewrite (adv_depth _ _ Ha2), (adv_depth _ _ Ha1)).
  intro Hl. specialize (Hq (lok_adv _ _ Ha1 Hl)). specialize (I2 (lok_adv _ _ Ha2 (lok_adv _ _ Ha1 Hl))).
  repeat (split; [first [reflexivity | lia | assumption | solve [split; eauto using sok_bd, adv_bd]]|]). exact I2.
Qed.

(** The item parsed from its prefix on. *)
Definition itq (k : nat) (s s' : span) (i : list_item) : Prop :=
  li_pos i = 0 /\
  (lok s -> item_ok uri_parse date_parse inner bd k (sp_depth s) (sp_start s) (sp_start s') i) /\
  sp_start s < sp_start s' /\ bole s' /\
  exists pre, prefix_ok (li_ty i) (li_suffix i) pre /\ starts_with pre (txt s s') = true.

Lemma G_item k :
  G (S n) (pmap (pair list_item_prefix (list_item_tail_ nested k))
             (fun p => ListItem (fst (fst p)) (snd (fst p)) 0 (snd (snd p)) (fst (snd p)))) (itq k).
Proof.
  intros s Hs Hn. unfold pmap, pair. eapply R_bind.
  - eapply (G_bind (S n) _ _ s _ (fun s' x => exists s1, adv s s1 /\ adv s1 s' /\
      pfq s s1 (fst x) /\ ltq k s1 s' (snd x)) (G_list_item_prefix (S n))); auto.
    cbv beta. intros s1 x Ha1 Hs1 Hn1 Hx. destruct Hx as (Hp & Hlt & He).
    pose proof (adv_rl_lt _ _ Hs Ha1 Hlt).
    eapply R_bind; [apply GP_list_item_tail; auto; lia|].
    cbv beta. intros s2 y Ha2 Hy. assert (Hs2 : sok s2) by eauto using adv_sok. rok.
    exists s1. cbn [fst snd]. repeat (split; auto).
  - cbv beta. intros s2 [[ty suf] [todo cs]] Ha (s1 & A1 & A2 & (Hp & Hlt & _) & Hcs & Hb & Hlt2 & Hi & s3 & B1 & B2 & Et & Hch).
    cbn [fst snd] in *. assert (Hs1 : sok s1) by eauto using adv_sok.
    assert (Hs2 : sok s2) by eauto using adv_sok. rok.
    assert (A3 : adv s s3) by eauto using adv_trans.
    split; [reflexivity|]. split; [|split; [lia|split; [exact Hb|]]].
    + intro Hl. specialize (Hch (lok_adv _ _ A1 Hl)). cbn [item_ok]. split; auto. split; auto. exists ty, (txt s s1). split; auto. cbv zeta.
      rewrite <- Et, !txt_length by auto. apply adv_start in A1 as L1. apply adv_start in B1 as L3.
      replace (sp_start s + (sp_start s1 - sp_start s) + (sp_start s3 - sp_start s1)) with (sp_start s3) by lia.
      split; [exact (txt_app s s1 s3 A1 B1)|]. rewrite <- (adv_depth _ _ A1). exact Hch.
    + exists (txt s s1). cbn [li_ty li_suffix]. split; auto. apply starts_with_spec.
      exists (txt s1 s2). now apply txt_app.
Qed.

(** The lines an item may extend over. *)
Lemma G_item_lines m k :
  G m (recognize (pair rest_of_line
         (many0 (preceded (verify (indentation_level false) (fun l => k <? l)) rest_of_line))))
    (fun s s' o => o = cov s s' /\ bole s').
Proof.
  assert (HB : G m rest_of_line (fun s s' _ => bole s')).
  { eapply G_weaken; [apply G_rest_of_line|]. cbv beta.
    intros s s' o Hs Ha (s1 & A1 & A2 & _ & _ & _ & H). apply (bole_eol s1); eauto using adv_sok.
    destruct H as [[-> H]|H]; auto. left. split; auto. destruct A1 as (_ & -> & _). exact H. }
  eapply G_weaken.
  - apply G_recognize. apply G_pair; [exact HB|]. apply G_many0.
    apply (G_preceded m _ _ _ _ (G_verify m _ _ _ (G_peek_indentation m)) HB).
  - cbv beta. intros s s' o Hs Ha (-> & x & s1 & A1 & A2 & Hb & Hst & _). split; auto.
    revert Hb Hst. apply steps_bole. intros t t' a (? & ? & _ & _ & _ & K). exact K.
Qed.

Definition liq (s s' : span) (r : nat * located list_item) : Prop :=
  let k := fst r in let i := snd r in
  bol inner (sp_start s) /\ k = count_while is_space (remaining s) /\
  blanks (text (sp_start s) (sp_start s + k)) /\
  sp_start s + k < sp_start s' /\ (bd (sp_start s + k) /\ bd (sp_start s')) /\
  l_reg i = Region (sp_start s + k) (sp_start s' - (sp_start s + k)) (sp_depth s) /\
  (lok s -> item_ok uri_parse date_parse inner bd k (sp_depth s) (sp_start s + k) (sp_start s') (l_val i)) /\
  li_pos (l_val i) = 0 /\ bole s' /\
  exists pre, prefix_ok (li_ty (l_val i)) (li_suffix (l_val i)) pre /\
              starts_with pre (text (sp_start s + k) (sp_start s')) = true.

Lemma G_list_item : G (S n) (list_item_ nested) liq.
Proof.
  intros s Hs Hn. unfold list_item_.
  gbind (G_beginning_of_line (S n)) as s1 x Ha1 Hs1 Hn1 (-> & Hbol).
  gbind (G_indentation (S n)) as s2 k Ha2 Hs2 Hn2 (Hb & Hst2 & Hk).
  pose proof (G_item_lines (S n) k s2 Hs2 Hn2) as HL. unfold R in HL.
  match type of HL with match ?r with _ => _ end => destruct r as [sx rem| | |] end;
    cbn [bind]; auto. destruct HL as [Hax (-> & Hbx)].
  assert (Hr : sok (cov s2 sx)) by now apply cov_sok.
  assert (Hrn : remaining_len (cov s2 sx) < S n) by (pose proof (cov_rl s2 sx Hs2 Hax); lia).
  pose proof (G_located_p (S n) _ _ (G_item k) (cov s2 sx) Hr Hrn) as HI. unfold R in HI.
  match type of HI with match ?r with _ => _ end => destruct r as [rem1 i| | |] end;
    cbn [bind]; auto. destruct HI as [Ha3 (Hreg & Hpos & Hok & Hlt & Hb3 & pre & Hp1 & Hp2)].
  cbn [cov sp_start sp_depth] in *. pose proof Ha3 as (I1 & I2 & I3 & I4 & I5 & I6).
  cbn [cov sp_start sp_end sp_depth] in *.
  replace (sp_start rem1 <? sp_start s2) with false by (symmetry; apply Nat.ltb_ge; lia).
  assert (Lx : sp_start sx <= sp_end s2) by (destruct Hax as (_ & _ & _ & _ & L & _); exact L).
  assert (Hle : sp_start rem1 - sp_start s2 <= remaining_len s2) by (rewrite rl_eq by auto; lia).
  rewrite advance_start_eq by auto.
  replace (sp_start s2 + (sp_start rem1 - sp_start s2)) with (sp_start rem1) by lia.
  apply R_ok.
  { repeat split; cbn [sp_start sp_end sp_depth sp_inner]; auto; lia. }
  unfold liq. cbn [fst snd sp_start sp_end sp_depth]. rewrite <- Hst2.
  split; auto. split; auto. split; [exact Hb|]. split; [exact Hlt|]. split; [eauto using sok_bd, adv_bd|].
  split; [rewrite Hreg; unfold reg; cbn [cov sp_start sp_depth]; now rewrite (adv_depth _ _ Ha2)|].
  split.
  { intro Hl. rewrite <- (adv_depth _ _ Ha2). apply Hok. unfold lok. cbn [cov sp_end].
    destruct Hbx as [Hbx|Hbx]; [|right; exact Hbx]. rewrite Hbx. exact (lok_adv _ _ Hax (lok_adv _ _ Ha2 Hl)). }
  split; auto. split; [|exists pre; auto].
  destruct Hb3 as [Hb3|Hb3]; [|right; exact Hb3]. rewrite I2 in Hb3.
  destruct Hbx as [Hbx|Hbx]; [left | right; rewrite Hb3; exact Hbx].
  cbn [sp_start sp_end]. rewrite Hb3, Hbx. now destruct Hax as (_ & -> & _).
Qed.

(** * Lists *)

Definition liqd (s s' : span) (r : nat * located list_item) : Prop := liq (with_deeper s) (with_deeper s') r.

Lemma item_ok_with_pos k d lo hi p i :
  item_ok uri_parse date_parse inner bd k d lo hi i -> item_ok uri_parse date_parse inner bd k d lo hi (li_with_pos p i).
Proof. now destruct i. Qed.
Lemma item_ok_with_ty k d lo hi t i :
  item_ok uri_parse date_parse inner bd k d lo hi i -> item_ok uri_parse date_parse inner bd k d lo hi (li_with_ty t i).
Proof. now destruct i. Qed.

Lemma chain_map {A} gap fin (P : nat -> nat -> A -> Prop) d f lo l hi :
  (forall a b x, P a b x -> P a b (f x)) -> chain bd gap fin P d lo l hi ->
  chain bd gap fin P d lo (map (lmap f) l) hi.
Proof.
  intro HP. revert lo. induction l as [|x l IH]; cbn; auto.
  intros lo (H1 & H2 & H3 & H4 & H7 & H5 & H6). cbn. auto 10.
Qed.

Lemma chain_assign gap fin k d lo l hi i :
  chain bd gap fin (item_ok uri_parse date_parse inner bd k d) d lo l hi ->
  chain bd gap fin (item_ok uri_parse date_parse inner bd k d) d lo (assign_pos i l) hi.
Proof.
  revert lo i. induction l as [|x l IH]; cbn; auto.
  intros lo i (H1 & H2 & H3 & H4 & H7 & H5 & H6). cbn. auto 10 using item_ok_with_pos.
Qed.

Lemma assign_pos_seq i l : map (fun x => li_pos (l_val x)) (assign_pos i l) = seq i (length l).
Proof.
  revert i. induction l as [|x l IH]; intro i; cbn; auto. f_equal.
  - now destruct (l_val x).
  - rewrite IH. f_equal. lia.
Qed.

Lemma map_ty_pos t l :
  map (fun x => li_pos (l_val x)) (map (lmap (li_with_ty t)) l) = map (fun x => li_pos (l_val x)) l.
Proof. rewrite map_map. apply map_ext. intro x. cbn. now destruct (l_val x). Qed.

Lemma map_ty_all t l : Forall (fun x => li_ty (l_val x) = t) (map (lmap (li_with_ty t)) l).
Proof. induction l as [|x l IH]; cbn; constructor; auto. cbn. now destruct (l_val x). Qed.

Lemma assign_pos_length i l : length (assign_pos i l) = length l.
Proof. revert i. induction l; intro i; cbn; auto. Qed.

Lemma with_deeper_S s : sp_depth (with_deeper s) = S (sp_depth s).
Proof. cbn. lia. Qed.

Definition igap (k : nat) (a b : nat) : Prop := bol inner a /\ b = a + k /\ blanks (text a b).

Lemma liq_chain1 k s s' x l hi :
  lok s -> liqd s s' (k, x) ->
  chain bd (igap k) exact (item_ok uri_parse date_parse inner bd k (S (sp_depth s))) (S (sp_depth s)) (sp_start s') l hi ->
  chain bd (igap k) exact (item_ok uri_parse date_parse inner bd k (S (sp_depth s))) (S (sp_depth s)) (sp_start s) (x :: l) hi.
Proof.
  intros Hl (H1 & H2 & H3 & H4 & H7 & H5 & H6 & _) H. specialize (H6 Hl). cbn [fst snd] in *. rewrite with_deeper_S in *.
  change (sp_start (with_deeper s)) with (sp_start s) in *.
  change (sp_start (with_deeper s')) with (sp_start s') in *.
  cbn [chain]. rewrite H5. cbn [r_off r_len r_depth].
  replace (sp_start s + k + (sp_start s' - (sp_start s + k))) with (sp_start s') by lia.
  split; [lia|]. split; [repeat split; auto|]. split; auto. split; [lia|]. split; auto.
Qed.

Definition nextq (k : nat) (s s' : span) (x : located list_item) : Prop := liqd s s' (k, x).

Lemma G_next_item k :
  G (S n) (preceded (verify (indentation_level false) (fun l => l =? k))
                    (pmap (deeper (list_item_ nested)) snd)) (nextq k).
Proof.
  eapply G_weaken.
  - apply (G_preceded (S n) _ _ _ (fun s s' x => exists k', liqd s s' (k', x))
             (G_verify (S n) _ (fun l => l =? k) _ (G_peek_indentation (S n)))).
    eapply G_pmap; [exact (G_deeper (S n) _ _ G_list_item)|]. cbv beta. intros s s' [k' x] _ _ H. exists k'. exact H.
  - cbv beta. intros s s' x Hs Ha (s1 & k0 & A1 & A2 & ((-> & ->) & Hk) & k' & H).
    apply Nat.eqb_eq in Hk. unfold nextq. replace k with k'; auto.
    destruct H as (_ & H & _). cbn [fst] in H. rewrite H. exact Hk.
Qed.

Lemma steps_items k s l s' :
  sok s -> lok s -> steps (nextq k) s l s' ->
  chain bd (igap k) exact (item_ok uri_parse date_parse inner bd k (S (sp_depth s))) (S (sp_depth s)) (sp_start s) l (sp_start s').
Proof.
  intros Hs Hl H. induction H as [s|s s1 s2 a l Hs0 Ha Hlt Hq Hst IH]; [reflexivity|].
  eapply liq_chain1; [exact Hl | exact Hq|]. rewrite <- (adv_depth _ _ Ha). eauto using adv_sok, lok_adv.
Qed.

Lemma G_list top : G (S n) (list_ nested) (BQ top BList).
Proof.
  apply G_BQ. intros s Hs Hn.
  gbind (G_deeper (S n) _ _ G_list_item) as s1 [k x] Ha1 Hs1 Hn1 Hx. fold (liqd s s1 (k, x)) in Hx.
  gbind (G_many0 (S n) _ _ (G_next_item k)) as s2 items Ha2 Hs2 Hn2 (Hst & _). rok.
  cbn [fst snd].
  pose proof Hx as (K1 & K2 & K3 & K4 & K9 & K5 & K6 & K7 & K8 & pre & P1 & P2).
  cbn [fst snd with_deeper with_depth sp_start sp_depth] in *.
  apply adv_start in Ha2 as L2.
  split; [lia|]. split.
  - intro Hl. pose proof (steps_items k s1 items s2 Hs1 (lok_adv _ _ Ha1 Hl) Hst) as Hch.
    rewrite (adv_depth _ _ Ha1) in Hch.
    cbn [block_ok normalize_list]. split; [exact K1|]. split; [|split].
    + cbn [map length seq]. rewrite map_ty_pos, assign_pos_seq, map_length, assign_pos_length, K7. reflexivity.
    + exists x, (map (lmap (li_with_ty (li_ty (l_val x)))) (assign_pos 1 items)).
      split; auto. split; [apply map_ty_all|]. exists pre. split; auto.
      rewrite K5. cbn [r_off]. apply starts_with_spec in P2 as [r Er]. apply starts_with_spec.
      exists (r ++ text (sp_start s1) (sp_start s2)). rewrite app_assoc, <- Er. apply slice_app; lia.
    + exists k. eapply liq_chain1; [exact Hl | exact Hx|]. apply chain_map; [intros; now apply item_ok_with_ty|].
      now apply chain_assign.
  - assert (Hb : bole s1) by exact K8. revert Hb Hst. apply steps_bole.
    intros t t' a (_ & _ & _ & _ & _ & _ & _ & _ & K & _). exact K.
Qed.

(** * Paragraphs *)

Lemma GP_pnot {A} m P (p : parser A) Q :
  GP m P p Q -> GP m P (pnot p) (fun s s' _ => s' = s /\ p s = Err).
Proof.
  intros H s Hs Hn HP. specialize (H s Hs Hn HP). unfold pnot, R in *.
  destruct (p s) eqn:E; auto. split; auto using adv_refl.
Qed.


(** Every other block parser, and the blank line, fails at [s]. *)
Definition no_other (s : span) : Prop :=
  p_header uri_parse date_parse s = Err /\ p_definition_list uri_parse date_parse s = Err /\
  list_ nested s = Err /\ p_table uri_parse date_parse s = Err /\ p_code_block s = Err /\
  p_math_block s = Err /\ blank_line s = Err /\ arrow_blockquote s = Err /\ p_divider s = Err /\
  p_placeholder date_parse s = Err.

Tactic Notation "nbind" constr(L) "as" ident(E) :=
  (eapply R_bind; [apply L; assumption | cbv beta; intros ? ? _ [-> E]]).

Lemma GP_continue :
  GP (S n) edge (continue_paragraph_ uri_parse date_parse nested) (fun s s' _ => s' = s /\ no_other s).
Proof.
  intros s Hs Hn He. unfold continue_paragraph_.
  nbind (GP_pnot (S n) edge _ _ (GP_of_G _ edge _ _ (G_header (S n)))) as E1.
  nbind (GP_pnot (S n) edge _ _ (GP_definition_list (S n) true)) as E2.
  nbind (GP_pnot (S n) edge _ _ (GP_of_G _ edge _ _ (G_list true))) as E3.
  nbind (GP_pnot (S n) edge _ _ (GP_of_G _ edge _ _ (G_table (S n)))) as E4.
  nbind (GP_pnot (S n) edge _ _ (GP_of_G _ edge _ _ (G_code_block (S n) true))) as E5.
  nbind (GP_pnot (S n) edge _ _ (GP_of_G _ edge _ _ (G_math_block (S n) true))) as E6.
  nbind (GP_pnot (S n) edge _ _ (GP_of_G _ edge _ _ (G_blank_line (S n)))) as E7.
  nbind (GP_pnot (S n) edge _ _ (GP_of_G _ edge _ _ (G_arrow (S n) true))) as E8.
  nbind (GP_pnot (S n) edge _ _ (GP_of_G _ edge _ _ (G_divider (S n)))) as E9.
  nbind (GP_pnot (S n) edge _ _ (GP_of_G _ edge _ _ (G_placeholder (S n)))) as E10.
  rok. split; auto. repeat split; assumption.
Qed.

Definition plq (s s' : span) (c : container) : Prop :=
  sp_start s < sp_start s' /\ bole s' /\
  exists s1 s2, adv s s1 /\ adv s1 s2 /\ adv s2 s' /\ blanks (txt s s1) /\
    no_lead (txt s1 s2) /\ (lok s -> eol_at inner (sp_start s') (txt s2 s')) /\
    cok (S (sp_depth s)) (sp_start s1) c (sp_start s2).

Lemma GP_paragraph_line m :
  GP m edge (paragraph_line uri_parse date_parse) (fun s s' c => exists s1, adv s s1 /\ adv s1 s' /\
     blanks (txt s s1) /\ no_lead (txt s1 s') /\ sp_start s1 < sp_start s' /\
     cok (S (sp_depth s)) (sp_start s1) c (sp_start s') /\
     (remaining s' = [] \/ at_eol (remaining s') 0)).
Proof.
  intros s Hs Hn He. unfold paragraph_line.
  gbind (G_space0 m) as s1 x Ha1 Hs1 Hn1 (_ & Hb & Hnx & _).
  assert (He1 : edge s1) by (apply (edge_space0 s); auto).
  unfold container_inner, pmap. eapply R_bind; [apply (GP_container m); auto|].
  cbv beta. intros s2 c Ha2 (Hr & Hlt & Hc & Hend). assert (Hs2 : sok s2) by eauto using adv_sok. rok.
  exists s1. rewrite (adv_depth _ _ Ha1) in Hc. repeat (split; [solve [auto using no_lead_next]|]). exact Hend.
Qed.

Lemma GP_para_item :
  GP (S n) edge (delimited (continue_paragraph_ uri_parse date_parse nested)
                   (paragraph_line uri_parse date_parse) end_of_line_or_input) plq.
Proof.
  intros s Hs Hn He. unfold delimited, preceded, terminated.
  eapply R_bind; [apply GP_continue; auto|]. cbv beta. intros s0 u _ [-> _].
  eapply R_bind; [apply (GP_paragraph_line (S n)); auto|].
  cbv beta. intros s2 c Ha2 (s1 & A1 & A2 & Hb & Hnl & Hlt & Hc & Hend).
  assert (Hs2 : sok s2) by eauto using adv_sok.
  assert (Hn2 : remaining_len s2 < S n) by (pose proof (adv_rl _ _ Hs Ha2); lia).
  gbind (G_end_of_line_or_input (S n)) as s3 x Ha3 Hs3 Hn3 Heol. rok.
  apply adv_start in A1 as L1. apply adv_start in Ha3 as L3.
  split; [lia|]. split; [now apply (bole_eol s2)|].
  exists s1, s2. repeat (split; [solve [auto | intro; apply eoli_eol_at; eauto 8 using lok_adv]|]). exact Hc.
Qed.

Lemma steps_para s l s' :
  sok s -> lok s -> steps plq s l s' ->
  para_ok uri_parse date_parse inner bd (sp_depth s) (sp_start s) l (sp_start s').
Proof.
  intros Hs Hl H. induction H as [s|s s1 s2 c l Hs0 Ha Hlt Hq Hst IH]; [reflexivity|].
  destruct Hq as (_ & _ & t1 & t2 & A1 & A2 & A3 & Hb & Hnl & He & Hc). specialize (He Hl).
  assert (T1 : sok t1) by eauto using adv_sok. assert (T2 : sok t2) by eauto using adv_sok.
  apply adv_start in A1 as L1. apply adv_start in A2 as L2. apply adv_start in A3 as L3.
  cbn [para_ok]. exists (txt s t1), (txt t1 t2), (txt t2 s1), (sp_start s1).
  rewrite !txt_length by auto.
  replace (sp_start s + (sp_start t1 - sp_start s)) with (sp_start t1) by lia.
  replace (sp_start t1 + (sp_start t2 - sp_start t1)) with (sp_start t2) by lia.
  split; [change (text (sp_start s) (sp_start s1)) with (txt s s1);
          rewrite (txt_app s t1 s1), (txt_app t1 t2 s1) by eauto using adv_trans; reflexivity|].
  split; [lia|]. repeat (split; [assumption|]). rewrite <- (adv_depth _ _ Ha). eauto using adv_sok, lok_adv.
Qed.

Lemma GP_paragraph top : GP (S n) edge (paragraph_ uri_parse date_parse nested) (BQ top BParagraph).
Proof.
  unfold paragraph_. apply GP_BQ. eapply GP_weaken.
  - apply (GP_many1 (S n) edge _ _ GP_para_item).
    + intros s s' a _ _ _ (_ & H & _). now apply bole_edge.
    + intros s s' a _ _ (H & _). exact H.
  - auto.
  - cbv beta. intros s s' l Hs He Ha (Hne & Hst & _).
    split; [eapply steps_lt; eauto|]. split.
    + intro Hl. cbn [block_ok]. split; auto. now apply steps_para.
    + destruct (steps_last _ _ _ _ Hs Hst Hne) as (t & a & _ & _ & _ & _ & K & _). exact K.
Qed.

End Nested.

(** * Blocks *)

Lemma BQ_lmap {A} top (f : A -> block) s s' x : BQ top f s s' x -> BQ top (fun b => b) s s' (lmap f x).
Proof. intros (H1 & H2 & H3 & H4). repeat split; auto. Qed.

Lemma GP_lmap {A} n P top (p : parser (located A)) (f : A -> block) :
  GP n P p (BQ top f) -> GP n P (pmap p (lmap f)) (BQ top (fun b => b)).
Proof. intro H. eapply GP_pmap; [exact H|]. intros. now apply BQ_lmap. Qed.

Lemma GP_nested fuel : GP fuel edge (nested_block_element uri_parse date_parse fuel) NQ.
Proof.
  induction fuel as [|f IH]; [intros s Hs Hn; lia|]. cbn [nested_block_element].
  intros s Hs Hn He.
  refine (GP_alt (S f) edge _ NQ _ s Hs Hn He).
  constructor; [apply GP_lmap, GP_definition_list|].
  constructor; [apply GP_lmap, GP_of_G, (G_list f _ IH)|].
  constructor; [apply GP_lmap, GP_of_G, G_nested_table|].
  constructor; [apply GP_lmap, GP_of_G, G_code_block|].
  constructor; [apply GP_lmap, GP_of_G, G_math_block|].
  constructor; [apply GP_lmap, GP_of_G, G_arrow|].
  constructor; [apply GP_lmap, (GP_paragraph f _ IH)|]. constructor.
Qed.

End ListProofs.
