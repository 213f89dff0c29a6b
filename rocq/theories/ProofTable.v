(** Contract of the table parser. *)
From Coq Require Import FinFun.
From Verif Require Import Base ModelSpan ModelComb ModelAst ModelTable ModelLink ModelInline ModelBlock
  SpecDoc SpecBlock ProofBase ProofBytes ProofContract ProofPrim ProofInline ProofLink ProofText
  ProofBlock ProofDefs.

(** * Collected cells *)

Lemma cellpos_eqb_eq a b : cellpos_eqb a b = true <-> a = b.
Proof.
  unfold cellpos_eqb. rewrite andb_true_iff, !Nat.eqb_eq. destruct a, b; cbn.
  split; [intros [-> ->]; auto | intro H; injection H; auto].
Qed.

Lemma cells_insert_new k v m : ~ In k (map fst m) -> cells_insert k v m = m ++ [(k, v)].
Proof.
  induction m as [|[k' v'] m IH]; cbn; auto. intro H.
  destruct (cellpos_eqb k k') eqn:E; [apply cellpos_eqb_eq in E; subst; tauto|].
  rewrite IH by tauto. reflexivity.
Qed.

Lemma cells_collect_id l : NoDup (map fst l) -> cells_collect l = l.
Proof.
  unfold cells_collect. induction l as [|[k v] l IH] using rev_ind; auto.
  rewrite map_app. cbn. intro H. rewrite fold_left_app. cbn.
  assert (H1 : NoDup (map fst l) /\ ~ In k (map fst l)).
  { apply NoDup_remove in H. rewrite app_nil_r in H. exact H. }
  destruct H1 as [H1 H2]. rewrite IH by auto. now apply cells_insert_new.
Qed.

Lemma cells_get_in m k v : NoDup (map fst m) -> (cells_get k m = Some v <-> In (k, v) m).
Proof.
  induction m as [|[k' v'] m IH]; cbn; intro H; [split; [discriminate | tauto]|].
  inversion H; subst. destruct (cellpos_eqb k k') eqn:E.
  - apply cellpos_eqb_eq in E. subst k'. split.
    + intro K. injection K as <-. auto.
    + intros [K|K]; [congruence|]. exfalso. apply H2. now apply (in_map fst) in K.
  - rewrite IH by auto. split; auto. intros [K|K]; auto. injection K as <- _.
    exfalso. assert (cellpos_eqb k' k' = true) by now apply cellpos_eqb_eq. congruence.
Qed.

Lemma in_combine_seq {A} (l : list A) k i x :
  In (i, x) (combine (seq k (length l)) l) <-> k <= i /\ nth_error l (i - k) = Some x.
Proof.
  revert k. induction l as [|a l IH]; intro k; cbn.
  - split; [tauto|]. intros [_ H]. destruct (i - k); discriminate.
  - rewrite IH. split.
    + intros [H|[H1 H2]]; [injection H as <- <-; rewrite Nat.sub_diag; auto|].
      split; [lia|]. replace (i - k) with (S (i - S k)) by lia. exact H2.
    + intros [H1 H2]. destruct (i - k) as [|m] eqn:E.
      * left. cbn in H2. injection H2 as ->. f_equal. lia.
      * right. split; [lia|]. replace (i - S k) with m by lia. exact H2.
Qed.

Lemma map_fst_combine_seq {A} (l : list A) k : map fst (combine (seq k (length l)) l) = seq k (length l).
Proof. revert k. induction l; intro k; cbn; f_equal; auto. Qed.

Lemma enum_row_in k cs r c x :
  In (CellPos r c, x) (enum_row k cs) <-> r = k /\ nth_error cs c = Some x.
Proof.
  unfold enum_row. rewrite in_map_iff. split.
  - intros ([i y] & E & H). cbn in E. injection E as <- <- <-. apply in_combine_seq in H as [_ H].
    now rewrite Nat.sub_0_r in H.
  - intros [-> H]. exists (c, x). split; auto. apply in_combine_seq. rewrite Nat.sub_0_r.
    split; [lia | auto].
Qed.

Definition enum_from (i : nat) (rs : list (list (located cell))) : list (cellpos * located cell) :=
  flat_map (fun p => enum_row (fst p) (snd p)) (combine (seq i (length rs)) rs).

Lemma enum_from_in i rs r c x :
  In (CellPos r c, x) (enum_from i rs) <->
  i <= r /\ exists row, nth_error rs (r - i) = Some row /\ nth_error row c = Some x.
Proof.
  unfold enum_from. rewrite in_flat_map. split.
  - intros ([k row] & H & K). cbn in K. apply enum_row_in in K as [-> K].
    apply in_combine_seq in H as [H1 H2]. eauto.
  - intros (H & row & H1 & H2). exists (r, row). split.
    + apply in_combine_seq; auto.
    + apply enum_row_in; auto.
Qed.

Lemma NoDup_app_intro {A} (l r : list A) :
  NoDup l -> NoDup r -> (forall x, In x l -> ~ In x r) -> NoDup (l ++ r).
Proof.
  intros H1 Hr. induction H1 as [|a l Ha Hl IH]; cbn; intro H; [exact Hr|]. constructor.
  - rewrite in_app_iff. intros [K|K]; [auto | exact (H a (or_introl eq_refl) K)].
  - apply IH. intros x Hx. apply H. now right.
Qed.

Lemma enum_row_nodup k cs : NoDup (map fst (enum_row k cs)).
Proof.
  unfold enum_row. rewrite map_map. cbn.
  rewrite <- (map_map fst (CellPos k)). rewrite map_fst_combine_seq.
  apply Injective_map_NoDup; [|apply seq_NoDup]. intros a b H. now injection H.
Qed.

Lemma enum_from_nodup i rs : NoDup (map fst (enum_from i rs)).
Proof.
  revert i. induction rs as [|r rs IH]; intro i; [constructor|].
  change (enum_from i (r :: rs)) with (enum_row i r ++ enum_from (S i) rs).
  rewrite map_app. apply NoDup_app_intro; auto using enum_row_nodup.
  intros [a b] H1 H2. apply in_map_iff in H1 as ([p x] & E & H1). cbn in E. subst p.
  apply in_map_iff in H2 as ([p y] & E & H2). cbn in E. subst p.
  apply enum_row_in in H1 as [-> _]. apply enum_from_in in H2 as [H2 _]. lia.
Qed.

Lemma fold_max {A} (f : A -> nat) l a :
  fold_left (fun a x => Nat.max a (f x)) l a = Nat.max a (list_max (map f l)).
Proof.
  revert a. induction l as [|x l IH]; intro a; [cbn; lia|].
  cbn [fold_left map]. rewrite IH. change (list_max (f x :: map f l)) with (Nat.max (f x) (list_max (map f l))). lia.
Qed.

Lemma list_max_seq k n : 0 < n -> list_max (map (fun c => c + 1) (seq k n)) = k + n.
Proof.
  revert k. induction n as [|n IH]; intros k H; [lia|]. cbn.
  destruct n; [cbn; lia|]. change (fold_right Nat.max 0 ?l) with (list_max l). rewrite IH; lia.
Qed.

Lemma enum_row_rows k cs : cs <> [] -> list_max (map (fun kv => cp_row (fst kv) + 1) (enum_row k cs)) = k + 1.
Proof.
  intro H. unfold enum_row. rewrite map_map. cbn. destruct cs as [|c cs]; [congruence|]. cbn.
  change (fold_right Nat.max 0 ?l) with (list_max l).
  assert (list_max (map (fun _ : nat * located cell => k + 1) (combine (seq 1 (length cs)) cs)) <= k + 1).
  { apply list_max_le. apply Forall_forall. intros x Hx. apply in_map_iff in Hx as (? & <- & _). lia. }
  lia.
Qed.

Lemma enum_row_cols k cs : list_max (map (fun kv => cp_col (fst kv) + 1) (enum_row k cs)) = length cs.
Proof.
  unfold enum_row. rewrite map_map. cbn. rewrite <- (map_map fst (fun c => c + 1)), map_fst_combine_seq.
  destruct cs; auto. rewrite list_max_seq by (cbn; lia). reflexivity.
Qed.

Lemma enum_from_rows i rs :
  rs <> [] -> Forall (fun r => r <> []) rs ->
  list_max (map (fun kv => cp_row (fst kv) + 1) (enum_from i rs)) = i + length rs.
Proof.
  intros Hne H. revert i. induction H as [|r rs Hr H IH]; intro i; [congruence|].
  change (enum_from i (r :: rs)) with (enum_row i r ++ enum_from (S i) rs).
  rewrite map_app, list_max_app, enum_row_rows by auto. destruct rs as [|r' rs].
  - cbn. lia.
  - rewrite IH by discriminate. cbn [length]. lia.
Qed.

Lemma enum_from_cols i rs :
  list_max (map (fun kv => cp_col (fst kv) + 1) (enum_from i rs)) = list_max (map (@length _) rs).
Proof.
  revert i. induction rs as [|r rs IH]; intro i; [reflexivity|].
  change (enum_from i (r :: rs)) with (enum_row i r ++ enum_from (S i) rs).
  rewrite map_app, list_max_app, enum_row_cols, IH. reflexivity.
Qed.

Section TableProofs.
Context {EV : env}.
Local Notation inner := (e_inner EV).
Local Notation bd := (e_bd EV).
Local Notation pan := (e_pan EV).
Local Notation uri_parse := (e_uri EV).
Local Notation date_parse := (e_date EV).
Local Notation bok := (block_ok uri_parse date_parse inner bd).
Local Notation cok := (container_ok uri_parse date_parse inner bd).
Local Notation text lo hi := (slice lo hi inner).

Lemma sep_loop_GP {A B} n P (sep : parser B) (p : parser A)
      (Qs : span -> span -> B -> Prop) (Q : span -> span -> A -> Prop) fuel s :
  G n sep Qs -> GP n P p Q -> (forall s s' b, sok s -> adv s s' -> Qs s s' b -> P s') ->
  sok s -> remaining_len s < n -> remaining_len s < fuel ->
  R s (sep_loop fuel sep p s) (fun s' l => sep_steps Qs Q s l s').
Proof.
  intros HS HG HP. revert s. induction fuel as [|f IH]; intros s Hs Hn Hf; [lia|].
  simpl. pose proof (HS s Hs Hn) as H. unfold R in H.
  destruct (sep s) as [s1 b| | |] eqn:E; auto.
  - destruct H as [Ha HQ]. destruct (span_eqb s1 s) eqn:E1; [exact I|].
    pose proof (span_eqb_start _ _ Hs Ha E1) as Hlt.
    pose proof (adv_rl_lt _ _ Hs Ha Hlt). pose proof (adv_sok _ _ Hs Ha) as Hs1.
    pose proof (HG s1 Hs1 ltac:(lia) (HP _ _ _ Hs Ha HQ)) as H1. unfold R in H1.
    destruct (p s1) as [s2 a| | |] eqn:E2; auto.
    + destruct H1 as [Ha2 HQ2]. pose proof (adv_rl _ _ Hs1 Ha2).
      pose proof (adv_sok _ _ Hs1 Ha2) as Hs2.
      assert (HR := IH s2 Hs2 ltac:(lia) ltac:(lia)).
      unfold R in *. destruct (sep_loop f sep p s2) as [s3 l| | |]; simpl; auto.
      destruct HR as [Hb Hst]. split; [eapply adv_trans; [|eapply adv_trans]; eauto|].
      econstructor; eauto.
    + apply R_ok; auto using adv_refl. constructor.
  - apply R_ok; auto using adv_refl. constructor.
Qed.

Lemma GP_separated_list1 {A B} n P (sep : parser B) (p : parser A)
      (Qs : span -> span -> B -> Prop) (Q : span -> span -> A -> Prop) :
  G n sep Qs -> GP n P p Q -> (forall s s' b, sok s -> adv s s' -> Qs s s' b -> P s') ->
  GP n P (separated_list1 sep p)
    (fun s s' l => exists s1 a l', l = a :: l' /\ adv s s1 /\ Q s s1 a /\ adv s1 s' /\
                                   sep_steps Qs Q s1 l' s').
Proof.
  intros HS HG HP s Hs Hn Hp. unfold separated_list1. eapply R_bind; [apply HG; auto|].
  intros s1 a Ha HQ1. assert (Hs1 : sok s1) by eauto using adv_sok. pose proof (adv_rl _ _ Hs Ha).
  eapply R_bind; [eapply (sep_loop_GP n P); eauto; lia|].
  intros s2 l Hb Hst. apply R_ok; [eauto using adv_refl, adv_sok|].
  exists s1, a, l. auto 10.
Qed.

(** * Cells *)

Definition ceq (s s' : span) (c : cell) : Prop :=
  sp_start s < sp_start s' /\
  cell_ok uri_parse date_parse inner bd (sp_depth s) (sp_start s) (sp_start s') c.

Lemma G_cell_span n t k :
  ascii_str t -> t <> [] ->
  (forall a b s s', text (sp_start s) (sp_start s') = a ++ t ++ b -> blanks a -> blanks b ->
     cell_ok uri_parse date_parse inner bd (sp_depth s) (sp_start s) (sp_start s') (CSpan k)) ->
  G n (pmap (value k (delimited space0 (tag t) space0)) CSpan) ceq.
Proof.
  intros Ht Hne Hok. eapply G_pmap.
  - eapply (G_value n k _ _ (fun s s' x => x = k /\ ceq s s' (CSpan k)));
      [apply (G_delimited n _ _ _ _ _ _ (G_space0 n) (G_tag n t Ht) (G_space0 n))|].
    cbv beta. intros s s' a Hs Ha (s1 & s2 & x & y & A1 & A2 & A3 & (_ & B1 & _) & (Et & _) & (_ & B2 & _)).
    assert (Hs1 : sok s1) by eauto using adv_sok.
    apply adv_start in A1 as L1. apply adv_start in A3 as L3.
    pose proof (tag_lt _ _ _ Hs1 A2 Et Hne). split; auto. split; [lia|].
    apply (Hok (txt s s1) (txt s2 s')); auto.
    change (text (sp_start s) (sp_start s')) with (txt s s').
    rewrite (txt_app s s1 s'), (txt_app s1 s2 s'), Et by eauto using adv_trans. reflexivity.
  - cbv beta. intros s s' a _ _ [-> H]. exact H.
Qed.

Lemma G_column_align n : G n (pmap column_align CAlign) ceq.
Proof.
  eapply G_pmap with (Q := fun s s' a => ceq s s' (CAlign a)); [|auto].
  intros s Hs Hn. unfold column_align.
  gbind (G_opt n _ _ (G_pchar n x3a eq_refl)) as s1 a Ha1 Hs1 Hn1 H1.
  gbind (G_take_line_while1 n x2d eq_refl ltac:(discriminate) ltac:(discriminate))
    as s2 o Ha2 Hs2 Hn2 (-> & Hrun & Hlt).
  gbind (G_opt n _ _ (G_pchar n x3a eq_refl)) as s3 b Ha3 Hs3 Hn3 H3. rok.
  apply adv_start in Ha1 as L1. apply adv_start in Ha3 as L3. split; [lia|].
  exists (sp_start s2 - sp_start s1). split; [lia|].
  change (text (sp_start s) (sp_start s3)) with (txt s s3).
  rewrite (txt_app s s1 s3), (txt_app s1 s2 s3), (run_repeat _ _ _ Hs1 Ha2 Hrun) by eauto using adv_trans.
  assert (E1 : txt s s1 = match a with Some _ => bs ":" | None => [] end).
  { destruct a; auto. destruct H1 as [-> _]. now apply txt_same. }
  assert (E3 : txt s2 s3 = match b with Some _ => bs ":" | None => [] end).
  { destruct b; auto. destruct H3 as [-> _]. now apply txt_same. }
  rewrite E1, E3. destruct a, b; reflexivity.
Qed.

Definition clq (s s' : span) (x : located cell) : Prop := l_reg x = reg s s' /\ ceq s s' (l_val x).

Lemma GP_cell n : GP n edge (p_cell uri_parse date_parse) clq.
Proof.
  unfold p_cell. eapply GP_weaken; [apply (GP_located_p n edge _ ceq) | auto | auto].
  apply GP_alt. constructor.
  { apply GP_of_G. apply (G_cell_span n (bs "\/") FromAbove); [asc_lit | discriminate|].
    intros a b s s' E Ha Hb. exists a, b. auto. }
  constructor.
  { apply GP_of_G. apply (G_cell_span n (bs ">") FromLeft); [asc_lit | discriminate|].
    intros a b s s' E Ha Hb. exists a, b. auto. }
  constructor; [apply GP_of_G, G_column_align|]. constructor; [|constructor].
  eapply GP_pmap.
  - apply (GP_cov_container n edge (take_line_until1 (bs "|")) (fun s s' => ~ In x7c (txt s s'))); auto.
    apply GP_of_G. eapply G_weaken.
    + apply (G_take_line_until1 n (bs "|") ltac:(discriminate) ltac:(cbn; lia) eq_refl).
    + cbv beta. intros t t' o Ht Ha (-> & (Hnl & Hst) & _). split; auto. split; auto.
      apply (line_stop_no_char _ t t' x7c Ht Ha Hst). cbn. auto.
  - cbv beta. intros s s' c Hs He Ha (Hc & Hlt & Hnl & Hin). split; auto. cbn [cell_ok]. auto.
Qed.

(** * Rows *)

Definition cldq (s s' : span) (x : located cell) : Prop := clq (with_deeper s) (with_deeper s') x.

Lemma edge_bar s s' : sok s -> adv s s' -> txt s s' = [x7c] -> edge s'.
Proof. intros Hs Ha E. apply (edge_byte s s' [] x7c); auto. Qed.

Lemma sep_chain s0 s d x l s' s'' e :
  sok s0 -> adv s0 s -> txt s0 s = [x7c] -> d = S (sp_depth s0) -> adv s' s'' ->
  (exists s1, adv s s1 /\ cldq s s1 x /\ adv s1 s' /\
     sep_steps (fun s s' (_ : byte) => txt s s' = [x7c]) cldq s1 l s') ->
  txt s' s'' = bs "|" ++ e -> eol_at inner (sp_start s'') e ->
  chain bd (fun a b => text a b = bs "|")
        (fun a b => a <= b /\ exists e, text a b = bs "|" ++ e /\ eol_at inner b e)
        (cell_ok uri_parse date_parse inner bd d) d (sp_start s0) (x :: l) (sp_start s'').
Proof.
  intros Hs0 Ha Et Hd Hfin (s1 & A1 & (Hr & Hlt & Hq) & A2 & Hst) Ee He.
  assert (Hs : sok s) by eauto using adv_sok. apply adv_start in Ha as L0.
  cbn [chain]. rewrite Hr. cbn [reg with_deeper with_depth sp_start sp_depth r_off r_len r_depth] in *.
  replace (sp_start s + (sp_start s1 - sp_start s)) with (sp_start s1) by lia.
  assert (Ed : sp_depth s + 1 = d) by (rewrite (adv_depth _ _ Ha), Hd; lia).
  split; [lia|]. split; [exact Et|]. split; [exact Ed|]. split; [lia|].
  split; [eauto using sok_bd, adv_bd|]. split; [rewrite <- Ed; exact Hq|].
  assert (Hs1 : sok s1) by eauto using adv_sok.
  assert (Hd1 : d = S (sp_depth s1)) by (rewrite (adv_depth _ _ A1); lia).
  clear - Hs1 Hd1 Hst Hfin Ee He. induction Hst as [t|t t1 t2 t3 b a l Ht B1 Hlt Hb B2 Hq Hst IH].
  - cbn. apply adv_start in Hfin as L. split; [exact L|]. exists e. auto.
  - assert (Ht1 : sok t1) by eauto using adv_sok. assert (Ht2 : sok t2) by eauto using adv_sok.
    destruct Hq as (Hr & Hlt2 & Hq). cbn [chain]. rewrite Hr.
    cbn [reg with_deeper with_depth sp_start sp_depth r_off r_len r_depth] in *.
    replace (sp_start t1 + (sp_start t2 - sp_start t1)) with (sp_start t2) by lia.
    assert (Ed : sp_depth t1 + 1 = d) by (rewrite (adv_depth _ _ B1), Hd1; lia).
    split; [lia|]. split; [exact Hb|]. split; [exact Ed|]. split; [lia|].
    split; [eauto using sok_bd, adv_bd|]. split; [rewrite <- Ed; exact Hq|]. apply IH; auto.
    rewrite (adv_depth _ _ B2). lia.
Qed.

Definition rowq (s s' : span) (l : list (located cell)) : Prop :=
  l <> [] /\ sp_start s < sp_start s' /\ bole s' /\
  (lok s -> chain bd (fun a b => text a b = bs "|")
        (fun a b => a <= b /\ exists e, text a b = bs "|" ++ e /\ eol_at inner b e)
        (cell_ok uri_parse date_parse inner bd (S (sp_depth s))) (S (sp_depth s))
        (sp_start s) l (sp_start s')).

Lemma G_row n : G n (p_row uri_parse date_parse) rowq.
Proof.
  intros s Hs Hn. unfold p_row, delimited, terminated, preceded.
  rewrite ?bind_bind. eapply R_bind.
  - eapply (G_bind n _ _ s _ (fun s3 l => exists s1 s2, adv s s1 /\ txt s s1 = [x7c] /\ adv s1 s2 /\
      (exists t x l', l = x :: l' /\ adv s1 t /\ cldq s1 t x /\ adv t s2 /\
         sep_steps (fun s s' (_ : byte) => txt s s' = [x7c]) cldq t l' s2) /\
      adv s2 s3 /\ txt s2 s3 = [x7c]) (G_pchar n x7c eq_refl)); auto.
    cbv beta. intros s1 b Ha1 Hs1 Hn1 Et.
    assert (He : edge s1) by (apply (edge_bar s); auto).
    eapply R_bind.
    + apply (GP_separated_list1 n edge (pchar x7c) (deeper (p_cell uri_parse date_parse))
               (fun s s' _ => txt s s' = [x7c]) cldq); auto.
      * apply (G_pchar n x7c eq_refl).
      * exact (GP_deeper n edge _ _ (GP_cell n)).
      * intros t t' x Ht Ha E. now apply (edge_bar t).
    + cbv beta. intros s2 l Ha2 (t & x & l' & -> & B1 & Hq & B2 & Hst).
      assert (Hs2 : sok s2) by eauto using adv_sok.
      assert (Hn2 : remaining_len s2 < n) by (pose proof (adv_rl _ _ Hs1 Ha2); lia).
      gbind (G_pchar n x7c eq_refl) as s3 c Ha3 Hs3 Hn3 Et3. rok.
      exists s1, s2. split; auto. split; auto. split; auto. split; [|auto].
      exists t, x, l'. auto 10.
  - cbv beta. intros s3 l Ha3 (s1 & s2 & A1 & E1 & A2 & (t & x & l' & -> & B1 & Hq & B2 & Hst) & A3 & E3).
    assert (Hs3 : sok s3) by eauto using adv_sok.
    assert (Hn3 : remaining_len s3 < n) by (pose proof (adv_rl _ _ Hs Ha3); lia).
    gbind (G_end_of_line_or_input n) as s4 u Ha4 Hs4 Hn4 Heol. rok.
    assert (Hs1 : sok s1) by eauto using adv_sok. assert (Hs2 : sok s2) by eauto using adv_sok.
    pose proof (tag_lt _ _ _ Hs A1 E1 ltac:(discriminate)) as L1.
    apply adv_start in A2 as L2. apply adv_start in A3 as L3. apply adv_start in Ha4 as L4.
    split; [discriminate|]. split; [lia|]. split; [now apply (bole_eol s3)|]. intro Hl.
    eapply (sep_chain s s1 _ x l' s2 s4 (txt s3 s4)); auto.
    + eauto using adv_trans.
    + exists t. auto.
    + rewrite (txt_app s2 s3 s4), E3 by auto. reflexivity.
    + apply eoli_eol_at; eauto 8 using lok_adv.
Qed.

(** * Tables *)

Definition rowsq (s s' : span) (r : str * list (located cell)) : Prop :=
  snd r <> [] /\
  (lok s -> row_ok uri_parse date_parse inner bd (S (sp_depth s)) (sp_start s) r (sp_start s')) /\
  sp_start s < sp_start s' /\ bole s'.

Lemma row_sp s s1 s' l :
  sok s -> adv s s1 -> adv s1 s' -> blanks (txt s s1) -> rowq s1 s' l -> rowsq s s' (txt s s1, l).
Proof.
  intros Hs A1 A2 Hb (H1 & H2 & H3 & H4). apply adv_start in A1 as L1.
  split; auto. split; [|split; [lia | auto]]. intro Hl. pose proof (lok_adv _ _ A1 Hl). unfold row_ok. cbn [fst snd]. rewrite txt_length by auto.
  replace (sp_start s + (sp_start s1 - sp_start s)) with (sp_start s1) by lia.
  rewrite <- (adv_depth _ _ A1). auto.
Qed.

Lemma G_next_row n :
  G n (preceded space0 (p_row uri_parse date_parse))
    (fun s s' l => exists sp, rowsq s s' (sp, l)).
Proof.
  eapply G_weaken; [apply (G_preceded n _ _ _ _ (G_space0 n) (G_row n))|].
  cbv beta. intros s s' l Hs Ha (s1 & x & A1 & A2 & (_ & Hb & _) & H).
  exists (txt s s1). now apply row_sp.
Qed.

Lemma steps_rows s l s' :
  sok s -> steps (fun s s' l => exists sp, rowsq s s' (sp, l)) s l s' ->
  exists rs, map snd rs = l /\
    (lok s -> rows_ok uri_parse date_parse inner bd (S (sp_depth s)) (sp_start s) rs (sp_start s')).
Proof.
  intros Hs H. induction H as [s|s s1 s2 a l Hs0 Ha Hlt [sp Hq] Hst IH].
  - exists []. split; reflexivity.
  - destruct IH as (rs & <- & IH); [eauto using adv_sok|]. exists ((sp, a) :: rs). split; auto.
    intro Hl. cbn [rows_ok]. exists (sp_start s1). split; auto. split; [now apply Hq|].
    rewrite <- (adv_depth _ _ Ha). eauto using lok_adv.
Qed.

Lemma rows_ok_nonempty d lo rs hi :
  rows_ok uri_parse date_parse inner bd d lo rs hi -> Forall (fun r => r <> []) (map snd rs).
Proof.
  revert lo. induction rs as [|r rs IH]; intros lo H; [constructor|].
  destruct H as (mid & _ & (_ & _ & Hne & _) & H). constructor; eauto.
Qed.

Lemma nth_error_map_snd {A B} (rs : list (A * B)) k y :
  nth_error (map snd rs) k = Some y <-> exists r, nth_error rs k = Some r /\ snd r = y.
Proof.
  rewrite nth_error_map. destruct (nth_error rs k) as [r|]; cbn.
  - split; [intro H; injection H as <-; eauto | intros (r' & H & <-); injection H as <-; auto].
  - split; [discriminate | intros (r' & H & _); discriminate].
Qed.

(** What [table_new] makes of the rows. *)
Lemma table_new_ok d lo hi sp first rs :
  rows_ok uri_parse date_parse inner bd (S d) lo ((sp, first) :: rs) hi ->
  let t := table_new (enum_rows (first :: map snd rs)) (negb (is_nil sp)) in
  negb (forallb (is_divider_row t) (rows t)) = true ->
  table_ok uri_parse date_parse inner bd false d lo hi t.
Proof.
  intros H t Hv. set (all := (sp, first) :: rs) in *.
  change (first :: map snd rs) with (map snd all) in t.
  pose proof (rows_ok_nonempty _ _ _ _ H) as Hne.
  assert (Ecells : t_cells t = enum_from 0 (map snd all)).
  { apply cells_collect_id. apply enum_from_nodup. }
  assert (Hnd : NoDup (map fst (t_cells t))) by (rewrite Ecells; apply enum_from_nodup).
  assert (Hin : forall r c x, In (CellPos r c, x) (t_cells t) <->
    exists row, nth_error all r = Some row /\ nth_error (snd row) c = Some x).
  { intros r c x. rewrite Ecells, enum_from_in, Nat.sub_0_r. split.
    - intros (_ & row & H1 & H2). apply nth_error_map_snd in H1 as (r' & H1 & <-). eauto.
    - intros (row & H1 & H2). split; [lia|]. exists (snd row). split; auto.
      apply nth_error_map_snd. eauto. }
  assert (Erow : t_row_cnt t = length all).
  { change (t_row_cnt t) with (fold_left (fun a kv => Nat.max a (cp_row (fst kv) + 1)) (t_cells t) 0).
    rewrite fold_max, Ecells, enum_from_rows by (auto; discriminate). now rewrite map_length. }
  exists (sp, first), rs. split; auto. split; [split; auto|]. split; auto. split.
  { change (t_col_cnt t) with (fold_left (fun a kv => Nat.max a (cp_col (fst kv) + 1)) (t_cells t) 0).
    rewrite fold_max, Ecells, enum_from_cols, map_map. reflexivity. }
  split; [reflexivity|].
  apply negb_true_iff in Hv. rewrite <- not_true_iff_false, forallb_forall in Hv.
  apply Exists_exists.
  assert (Hx : exists r, In r (rows t) /\ is_divider_row t r = false).
  { destruct (existsb (fun r => negb (is_divider_row t r)) (rows t)) eqn:E.
    - apply existsb_exists in E as (r & H1 & H2). apply negb_true_iff in H2. eauto.
    - exfalso. apply Hv. intros x Hx. destruct (is_divider_row t x) eqn:E2; auto.
      rewrite <- not_true_iff_false in E. exfalso. apply E. apply existsb_exists.
      exists x. now rewrite E2. }
  destruct Hx as (r & Hr & Hd). unfold rows in Hr. apply in_seq in Hr. rewrite Erow in Hr.
  destruct (nth_error all r) as [row|] eqn:Enr; [|apply nth_error_None in Enr; lia].
  exists row. split; [eapply nth_error_In; eauto|]. intros x l Ex.
  assert (K : cells_get (CellPos r 0) (t_cells t) = Some x).
  { apply cells_get_in; auto. apply Hin. exists row. rewrite Ex. auto. }
  unfold is_divider_row, get_cell in Hd. rewrite K in Hd. destruct (l_val x); auto. discriminate.
Qed.

Lemma G_table n : G n (p_table uri_parse date_parse) (BQ true BTable).
Proof.
  apply G_BQ. eapply G_weaken.
  - apply (G_verify n _ _ (fun s s' t => exists sp first rs,
      t = table_new (enum_rows (first :: map snd rs)) (negb (is_nil sp)) /\
      (lok s -> rows_ok uri_parse date_parse inner bd (S (sp_depth s)) (sp_start s) ((sp, first) :: rs) (sp_start s')) /\
      sp_start s < sp_start s' /\ bole s')).
    intros s Hs Hn.
    gbind (G_pair n _ _ _ _ (G_space0 n) (G_row n)) as s1 x Ha1 Hs1 Hn1 (sa & A1 & A2 & (Ex & Hb & _) & Hrow).
    gbind (G_many0 n _ _ (G_next_row n)) as s2 l Ha2 Hs2 Hn2 (Hst & _). rok.
    destruct (row_sp s sa s1 (snd x) Hs A1 A2 Hb Hrow) as (_ & K1 & K2 & K3).
    destruct (steps_rows _ _ _ Hs1 Hst) as (rs & <- & Hrs).
    exists (txt s sa), (snd x), rs. rewrite Ex, non_empty_cov_eq by auto. split; auto.
    split; [|split].
    + intro Hl. cbn [rows_ok]. exists (sp_start s1). split; auto. split; auto.
      rewrite <- (adv_depth _ _ Ha1). eauto using lok_adv.
    + apply adv_start in Ha2. lia.
    + revert K3 Hst. apply steps_bole. intros ? ? ? (? & _ & _ & _ & K). exact K.
  - cbv beta. intros s s' t Hs Ha ((sp & first & rs & -> & H1 & H2 & H3) & Hv).
    split; auto. split; auto. intro Hl. cbn [block_ok negb]. apply table_new_ok; auto.
Qed.

Lemma G_nested_table n : G n (p_nested_table uri_parse date_parse) (BQ false BTable).
Proof.
  unfold p_nested_table. eapply G_pmap; [apply G_table|].
  intros s s' x Hs Ha (H1 & H2 & H3 & H4).
  split; auto. split; auto. split; auto. intro Hl. destruct (H3 Hl) as (first & rs & K1 & K2 & K3 & K4 & K5 & K6).
  cbn [lmap l_val block_ok negb].
  exists first, rs. cbn [t_cells t_row_cnt t_col_cnt t_centered]. auto 10.
Qed.

End TableProofs.
