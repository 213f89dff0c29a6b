(** Contracts of the code and math block parsers. *)
From Verif Require Import Base ModelSpan ModelComb ModelAst ModelLink ModelInline ModelBlock
  SpecDoc SpecBlock ProofBase ProofBytes ProofContract ProofPrim ProofInline ProofLink ProofText
  ProofBlock.

(** * Unicode white space *)

Lemma uws_zero l : uws_len l = 0 -> forall c, In c ws_chars -> starts_with c l = false.
Proof.
  intros H c Hc. destruct (starts_with c l) eqn:E; auto. exfalso.
  apply starts_with_spec in E as [r ->].
  cbn in Hc. repeat (destruct Hc as [<-|Hc]; [vm_compute in H; discriminate|]). contradiction.
Qed.

Lemma uws_pos l : 0 < uws_len l -> In (firstn (uws_len l) l) ws_chars /\ uws_len l <= length l.
Proof.
  destruct l as [|b0 l]; [cbn; lia|].
  destruct b0; intro H; try (exfalso; exact (Nat.nlt_0_r 0 H));
    try (split; [cbn; tauto | cbn [length]; change (uws_len _) with 1; lia]).
  all: destruct l as [|b1 l]; [exfalso; exact (Nat.nlt_0_r 0 H)|].
  all: destruct b1; try (exfalso; exact (Nat.nlt_0_r 0 H));
    try (split; [cbn; tauto | cbn [length]; change (uws_len _) with 2; lia]).
  all: destruct l as [|b2 l]; [exfalso; exact (Nat.nlt_0_r 0 H)|].
  all: destruct b2; try (exfalso; exact (Nat.nlt_0_r 0 H));
    (split; [vm_compute; tauto | cbn [length]; change (uws_len _) with 3; lia]).
Qed.

Lemma leading_uws_spec fuel l :
  length l <= fuel ->
  let c := leading_uws fuel l in
  c <= length l /\ (exists cs, Forall (fun x => In x ws_chars) cs /\ concat cs = firstn c l) /\
  (forall x, In x ws_chars -> starts_with x (skipn c l) = false).
Proof.
  revert l. induction fuel as [|f IH]; intros l Hl; cbn [leading_uws].
  - destruct l; [|cbn in Hl; lia]. split; [cbn; lia|]. split; [exists []; auto|].
    now apply uws_zero.
  - destruct (uws_len l) as [|m] eqn:E.
    + split; [cbn; lia|]. split; [exists []; auto|]. now apply uws_zero.
    + pose proof (uws_pos l ltac:(lia)) as [H1 H2]. rewrite E in *.
      specialize (IH (skipn (S m) l)). rewrite skipn_length in IH.
      destruct IH as (I1 & (cs & I2 & I3) & I4); [lia|].
      split; [lia|]. split.
      * exists (firstn (S m) l :: cs). split; [constructor; auto|]. cbn [concat]. rewrite I3.
        set (k := leading_uws f (skipn (S m) l)) in *.
        rewrite <- (firstn_skipn (S m) l) at 3. rewrite firstn_app, firstn_length.
        rewrite Nat.min_l by lia. rewrite (firstn_all2 (n := S m + k)) by (rewrite firstn_length; lia).
        f_equal. f_equal. lia.
      * intros x Hx. specialize (I4 x Hx). rewrite skipn_skipn in I4.
        rewrite <- I4. f_equal. f_equal. lia.
Qed.

Lemma dedent_line_ok k l l' : dedent_line k l = Some l' -> dedented k l l'.
Proof.
  unfold dedent_line. intro H. set (m := Nat.min (count_leading_uws l) k) in *.
  pose proof (leading_uws_spec (length l) l ltac:(lia)) as (C1 & (cs & C2 & C3) & C4).
  fold (count_leading_uws l) in *. set (c := count_leading_uws l) in *.
  assert (E : l' = skipn m l).
  { unfold str_from in H. destruct (length l <? m); [discriminate|].
    destruct (skipn m l); [congruence|]. destruct (_ && _); congruence. }
  subst l'. exists (firstn m l). split; [now rewrite firstn_skipn|].
  split; [rewrite firstn_length; lia|]. split.
  - exists (slice m c l), (skipn c l). split.
    + unfold slice. rewrite <- (firstn_skipn (c - m) (skipn m l)) at 1. f_equal.
      rewrite skipn_skipn. f_equal. lia.
    + exists cs. split; auto. rewrite C3. unfold slice.
      rewrite <- (firstn_skipn m l) at 1. rewrite firstn_app, firstn_length.
      rewrite (firstn_all2 (n := c)) by (rewrite firstn_length; lia). f_equal. f_equal. lia.
  - destruct (Nat.le_gt_cases k c).
    + left. rewrite firstn_length. lia.
    + right. replace m with c by lia. exact C4.
Qed.

Lemma dedent_ok k ls ls' : dedent k ls = Some ls' -> Forall2 (dedented k) ls ls'.
Proof.
  revert ls'. induction ls as [|l ls IH]; cbn; intros ls' H; [injection H as <-; constructor|].
  destruct (dedent_line k l) as [x|] eqn:E1; [|discriminate].
  destruct (dedent k ls) as [xs|]; [|discriminate]. injection H as <-.
  constructor; auto using dedent_line_ok.
Qed.

Lemma dedent_none k ls : dedent k ls = None -> exists l, In l ls /\ dedent_line k l = None.
Proof.
  induction ls as [|l ls IH]; cbn; [discriminate|].
  destruct (dedent_line k l) eqn:E; [|eauto].
  destruct (dedent k ls); [discriminate|]. intros _. destruct IH as (x & H1 & H2); eauto.
Qed.

(** * The last binding wins *)

Lemma map_insert_keys k v m : map fst (map_insert k v m) =
  if existsb (str_eqb k) (map fst m) then map fst m else map fst m ++ [k].
Proof.
  induction m as [|[k' v'] m IH]; cbn; auto. destruct (str_eqb k k') eqn:E; cbn.
  - apply str_eqb_eq in E. now subst.
  - rewrite IH. now destruct (existsb _ _).
Qed.

Lemma existsb_str_in k l : existsb (str_eqb k) l = true <-> In k l.
Proof.
  rewrite existsb_exists. split.
  - intros (x & H1 & H2). apply str_eqb_eq in H2. now subst.
  - intro H. exists k. split; auto using str_eqb_refl.
Qed.

Lemma map_insert_nodup k v m : NoDup (map fst m) -> NoDup (map fst (map_insert k v m)).
Proof.
  intro H. rewrite map_insert_keys. destruct (existsb _ _) eqn:E; auto.
  assert (~ In k (map fst m)) by (rewrite <- existsb_str_in; congruence).
  apply NoDup_rev in H. rewrite <- rev_involutive. apply NoDup_rev. rewrite rev_app_distr. cbn.
  constructor; auto. now rewrite <- in_rev.
Qed.

Lemma map_insert_in k v m x y :
  NoDup (map fst m) ->
  In (x, y) (map_insert k v m) <-> (x = k /\ y = v) \/ (x <> k /\ In (x, y) m).
Proof.
  induction m as [|[k' v'] m IH]; cbn; intro Hnd.
  - split; [intros [H|[]]; injection H as <- <-; auto | intros [[-> ->]|[_ []]]; auto].
  - inversion Hnd; subst. destruct (str_eqb k k') eqn:E.
    + apply str_eqb_eq in E. subst k'. cbn. split.
      * intros [H|H]; [injection H as <- <-; auto|]. right. split; auto. intros ->.
        apply H1. now apply (in_map fst) in H.
      * intros [[-> ->]|[H [H'|H']]]; auto. injection H' as <- <-. congruence.
    + apply str_eqb_neq in E. cbn. rewrite IH by auto. split.
      * intros [H|[H|H]]; auto; [injection H as <- <-; right; split; auto | tauto].
      * tauto.
Qed.

Lemma collect_map_last pairs : last_binding pairs (collect_map pairs).
Proof.
  unfold collect_map. induction pairs as [|[k v] pairs IH] using rev_ind.
  - split; [constructor|]. cbn. intros k v. split; [tauto|]. intros (a & b & E & _). now destruct a.
  - rewrite fold_left_app. cbn [fold_left fst snd]. destruct IH as [H1 H2].
    split; [now apply map_insert_nodup|]. intros x y. rewrite map_insert_in by auto. rewrite H2. split.
    + intros [[-> ->]|[Hne (a & b & -> & Hb)]].
      * exists pairs, []. auto.
      * exists a, (b ++ [(k, v)]). rewrite <- app_assoc. split; auto.
        rewrite map_app, in_app_iff. cbn. intuition.
    + intros (a & b & E & Hb). destruct b as [|p b] using rev_ind; [|clear IHb].
      * apply app_inj_tail in E as [_ E]. injection E as -> ->. auto.
      * right. change (a ++ (x, y) :: b ++ [p]) with (a ++ ((x, y) :: b) ++ [p]) in E.
        rewrite app_assoc in E. apply app_inj_tail in E as [-> <-].
        rewrite map_app, in_app_iff in Hb. cbn in Hb. split; [intros ->; tauto|].
        exists a, b. tauto.
Qed.

Section FenceProofs.
Context {EV : env}.
Local Notation inner := (e_inner EV).
Local Notation bd := (e_bd EV).
Local Notation pan := (e_pan EV).
Local Notation uri_parse := (e_uri EV).
Local Notation date_parse := (e_date EV).

(** * When the primitives succeed *)

Lemma txt_of_remaining s s' a r :
  sok s -> adv s s' -> remaining s = a ++ r -> sp_start s' = sp_start s + length a ->
  txt s s' = a /\ remaining s' = r.
Proof.
  intros Hs Ha E Hst. split.
  - rewrite txt_firstn by auto. rewrite Hst, E. replace (_ + _ - _) with (length a) by lia.
    rewrite firstn_app, firstn_all, Nat.sub_diag. apply app_nil_r.
  - rewrite (remaining_skipn s s') by auto. rewrite Hst, E.
    replace (_ + _ - _) with (length a) by lia.
    rewrite skipn_app, skipn_all, Nat.sub_diag. reflexivity.
Qed.

Lemma count_while_app p (a r : str) :
  Forall (fun b => p b = true) a -> (forall b l, r = b :: l -> p b = false) ->
  count_while p (a ++ r) = length a.
Proof.
  intros H Hr. induction H as [|b a Hb Ha IH]; cbn.
  - destruct r; cbn; auto. now rewrite (Hr _ _ eq_refl).
  - rewrite Hb. now f_equal.
Qed.

Lemma space0_at s a r :
  sok s -> remaining s = a ++ r -> blanks a -> no_lead r ->
  exists s', space0 s = Ok s' (cov s s') /\ adv s s' /\ sok s' /\ txt s s' = a /\ remaining s' = r.
Proof.
  intros Hs E Ha Hr. pose proof (G_space0 (S (remaining_len s)) s Hs ltac:(lia)) as H. unfold R in H.
  destruct (space0 s) as [s' o| | |] eqn:Es; try discriminate Es.
  destruct H as [Hadv (-> & _ & _ & Hst)]. exists s'. split; auto. split; auto.
  split; [eauto using adv_sok|]. apply txt_of_remaining; auto.
  rewrite Hst, E. f_equal. now apply count_while_app.
Qed.

Lemma tag_at s t r :
  sok s -> ascii_str t -> remaining s = t ++ r ->
  exists s' o, tag t s = Ok s' o /\ adv s s' /\ sok s' /\ txt s s' = t /\ remaining s' = r.
Proof.
  intros Hs Ht E. pose proof (G_tag (S (remaining_len s)) t Ht s Hs ltac:(lia)) as H. unfold R in H.
  assert (Hsw : starts_with t (remaining s) = true) by (apply starts_with_spec; eauto).
  unfold tag in *. rewrite Hsw in *. unfold ok_split in *. destruct H as [Ha [H1 H2]].
  eexists _, _. split; [reflexivity|]. split; auto. split; [eauto using adv_sok|]. split; auto.
  rewrite (remaining_split s _ Hs Ha), H1 in E. now apply app_inv_head in E.
Qed.

Lemma eoli_at s e r :
  sok s -> remaining s = e ++ r -> (e = [b_nl] \/ e = [b_cr; b_nl] \/ (e = [] /\ r = [])) ->
  exists s', end_of_line_or_input s = Ok s' tt /\ adv s s' /\ sok s' /\ txt s s' = e /\ remaining s' = r.
Proof.
  intros Hs E H. unfold end_of_line_or_input.
  assert (Hl : remaining_len s = length (e ++ r)) by (rewrite rl_eq, <- E, remaining_length by auto; auto).
  unfold sp_is_empty. rewrite Hl. destruct H as [->|[->|[-> ->]]].
  - cbn [app length Nat.eqb]. destruct (tag_at s nl_str r Hs ascii_nl E) as (s' & o & H1 & H2 & H3 & H4 & H5).
    unfold line_ending, palt. rewrite H1. cbn [bind]. eauto 8.
  - cbn [app length Nat.eqb].
    assert (Hn : tag nl_str s = Err) by (unfold tag; rewrite E; reflexivity).
    destruct (tag_at s crlf_str r Hs ascii_crlf E) as (s' & o & H1 & H2 & H3 & H4 & H5).
    unfold line_ending, palt. rewrite Hn, H1. cbn [bind]. eauto 8.
  - cbn. exists s. rewrite txt_same by auto. auto using adv_refl.
Qed.

(** * Closing fences *)

Definition fence_end (t : str) : parser nat :=
  fun s =>
    do (s1, n) <- map_parser space0 count_remaining_bytes s;;
    do (s2, _) <- tag t s1;;
    do (s3, _) <- space0 s2;;
    do (s4, _) <- end_of_line_or_input s3;;
    Ok s4 n.

Lemma G_indent n :
  G n (map_parser space0 count_remaining_bytes)
    (fun s s' k => blanks (txt s s') /\ k = length (txt s s')).
Proof.
  eapply G_map_parser; [apply (G_space0 n)|]. cbv beta.
  intros s s1 o Hs Hn Ha (-> & Hb & _). split; [now apply cov_sok|].
  eapply R_weaken; [apply (G_count_remaining_bytes (S (remaining_len (cov s s1)))); [now apply cov_sok|lia]|].
  cbv beta. intros o' k _ [_ ->]. split; auto. rewrite rl_eq by (now apply cov_sok).
  now rewrite txt_length.
Qed.

Definition feq (t : str) (s s' : span) (k : nat) : Prop :=
  exists a b e, txt s s' = a ++ t ++ b ++ e /\ blanks a /\ blanks b /\ (lok s -> eol_at inner (sp_start s') e) /\
                k = length a /\ bole s' /\ sp_start s < sp_end s /\ sp_start s < sp_start s'.

Lemma G_fence_end n t : ascii_str t -> t <> [] -> G n (fence_end t) (feq t).
Proof.
  intros Ht Hne s Hs Hn. unfold fence_end.
  gbind (G_indent n) as s1 k Ha1 Hs1 Hn1 (Hb & ->).
  gbind (G_tag n t Ht) as s2 x Ha2 Hs2 Hn2 (Et & _).
  gbind (G_space0 n) as s3 x3 Ha3 Hs3 Hn3 (_ & Hb3 & _).
  gbind (G_end_of_line_or_input n) as s4 u Ha4 Hs4 Hn4 He. rok.
  pose proof (tag_lt _ _ _ Hs1 Ha2 Et Hne) as Hlt.
  apply adv_start in Ha1 as L1. apply adv_start in Ha3 as L3. apply adv_start in Ha4 as L4.
  exists (txt s s1), (txt s2 s3), (txt s3 s4).
  split; [rewrite (txt_app s s1 s4), (txt_app s1 s2 s4), (txt_app s2 s3 s4), Et by eauto using adv_trans; reflexivity|].
  split; auto. split; auto. split; [intro; apply eoli_eol_at; eauto 8 using lok_adv|]. split; auto.
  split; [now apply (bole_eol s3)|].
  destruct Ha2 as (_ & E2 & _ & _ & K & _). destruct Ha1 as (_ & E1 & _). lia.
Qed.

(** A closing line is recognised. *)
Lemma fence_end_complete t s l e r :
  sok s -> ascii_str t -> (exists b u, t = b :: u /\ is_space b = false) ->
  remaining s = l ++ e ++ r -> (e = [b_nl] \/ e = [b_cr; b_nl] \/ (e = [] /\ r = [])) ->
  closing_line t l -> fence_end t s <> Err.
Proof.
  intros Hs Ht (b0 & u & Eb & Hb0) E He (a & b & -> & Ha & Hb).
  rewrite <- !app_assoc in E. unfold fence_end, map_parser.
  destruct (space0_at s a (t ++ b ++ e ++ r) Hs E Ha) as (s1 & E1 & A1 & S1 & T1 & R1).
  { intros x y Exy. rewrite Eb in Exy. cbn in Exy. injection Exy as <- _. exact Hb0. }
  rewrite E1. cbn [bind count_remaining_bytes].
  destruct (tag_at s1 t (b ++ e ++ r) S1 Ht R1) as (s2 & o & E2 & A2 & S2 & T2 & R2).
  rewrite E2. cbn [bind].
  destruct (space0_at s2 b (e ++ r) S2 R2 Hb) as (s3 & E3 & A3 & S3 & T3 & R3).
  { intros x y Exy. destruct He as [->|[->|[-> ->]]]; cbn in Exy; try discriminate;
      injection Exy as <- _; reflexivity. }
  rewrite E3. cbn [bind].
  destruct (eoli_at s3 e r S3 R3 He) as (s4 & E4 & _). rewrite E4. discriminate.
Qed.

(** * The lines *)

Definition lineq (t : str) (s s' : span) (l : str) : Prop :=
  exists s1, adv s s1 /\ adv s1 s' /\ l = txt s s1 /\ no_nl l /\ ~ closing_line t l /\
    ((s' = s1 /\ sp_start s1 = sp_end s) \/ txt s1 s' = [b_nl] \/ txt s1 s' = [b_cr; b_nl]).

Lemma G_fence_line n t :
  ascii_str t -> (exists b u, t = b :: u /\ is_space b = false) ->
  G n (preceded (pnot (fence_end t)) (map_parser any_line cow_str)) (lineq t).
Proof.
  intros Ht Hb0. assert (Hne : t <> []) by (destruct Hb0 as (b & u & -> & _); discriminate).
  eapply G_weaken.
  - apply G_preceded; [apply (G_pnot n _ _ (G_fence_end n t Ht Hne))|].
    apply (G_cow _ _ (G_any_line n)).
    intros s s' o Hs Ha (_ & s1 & H1 & _ & -> & _). now apply cov_sok.
  - cbv beta. intros s s' l Hs Ha (s0 & u & A1 & A2 & (-> & Herr) & o & (Hbol & s1 & B1 & B2 & -> & Hnl & He & Hend) & ->).
    rewrite remaining_cov by auto.
    exists s1. split; auto. split; auto. split; auto. split; auto. split; auto.
    intro Hc. revert Herr.
    assert (Hs1 : sok s1) by eauto using adv_sok.
    apply (fence_end_complete t s (txt s s1) (txt s1 s') (remaining s')); auto.
    + rewrite (remaining_split s s1), (remaining_split s1 s') by auto. reflexivity.
    + destruct Hend as [[-> Hend]|[Hend|Hend]]; auto. right. right.
      rewrite txt_same by auto. split; auto. rewrite remaining_eq by auto. apply slice_nil.
      destruct B1 as (_ & -> & _). lia.
Qed.

Lemma steps_fence t s l s' :
  sok s -> steps (lineq t) s l s' -> sp_start s' < sp_end s' ->
  fenced_lines t (txt s s') l /\
  Forall (fun x => exists lo hi, x = slice lo hi inner /\ no_nl x) l.
Proof.
  intros Hs H Hend. induction H as [s|s s1 s2 a l Hs0 Ha Hlt Hq Hst IH].
  - rewrite txt_same by auto. split; [exists []; auto|constructor].
  - pose proof (adv_sok _ _ Hs Ha) as Hs1. destruct IH as [(es & E1 & E2 & E3 & E4) E5]; auto.
    pose proof (steps_adv _ _ _ _ Hs1 Hst) as Ha2.
    destruct Hq as (sm & B1 & B2 & -> & Hnl & Hcl & He).
    assert (He' : txt sm s1 = [b_nl] \/ txt sm s1 = [b_cr; b_nl]).
    { destruct He as [[-> He]|He]; auto. exfalso.
      destruct Ha2 as (_ & K1 & _ & K2 & _). destruct Ha as (_ & K3 & _). lia. }
    split.
    + exists (txt sm s1 :: es). cbn [length combine map concat fst snd]. split; [now rewrite E1|].
      split; [|split; constructor; auto].
      rewrite (txt_app s s1 s2), (txt_app s sm s1), E2 by auto. reflexivity.
    + constructor; auto. exists (sp_start s), (sp_start sm). auto.
Qed.

Lemma R_dedent {A} s s' k ls (f : list str -> A) (Q : span -> A -> Prop) :
  sok s -> adv s s' -> Forall (fun x => exists lo hi, x = slice lo hi inner /\ no_nl x) ls ->
  (forall ls', Forall2 (dedented k) ls ls' -> Q s' (f ls')) ->
  R s match dedent k ls with Some x => Ok s' (f x) | None => Panic end Q.
Proof.
  intros Hs Ha Hls HQ. destruct (dedent k ls) as [x|] eqn:E.
  - apply R_ok; auto. apply HQ. now apply dedent_ok.
  - cbn. apply dedent_none in E as (l & Hin & Hl). rewrite Forall_forall in Hls.
    destruct (Hls l Hin) as (lo & hi & -> & Hnl). eapply e_pan_dedent; eauto.
Qed.

(** * Math blocks *)

Lemma G_math_env n :
  G n (map_parser (delimited (pchar x25) (take_line_until1 (bs "%")) (pchar x25)) cow_str)
    (fun s s' v => txt s s' = bs "%" ++ v ++ bs "%" /\ v <> [] /\ no_nl v /\ ~ In x25 v).
Proof.
  eapply G_weaken.
  - apply G_cow.
    + apply (G_delimited n _ _ _ _ _ _ (G_pchar n x25 eq_refl)
               (G_take_line_until1 n (bs "%") ltac:(discriminate) ltac:(cbn; lia) eq_refl)
               (G_pchar n x25 eq_refl)).
    + cbv beta. intros s s' o Hs Ha (s1 & s2 & _ & _ & A1 & A2 & A3 & _ & (-> & _) & _).
      apply cov_sok; eauto using adv_sok.
  - cbv beta. intros s s' v Hs Ha (o & (s1 & s2 & x & y & A1 & A2 & A3 & E1 & (-> & (Hnl & Hst) & Hlt) & E3) & ->).
    assert (Hs1 : sok s1) by eauto using adv_sok. rewrite remaining_cov by auto. split.
    + rewrite (txt_app s s1 s'), (txt_app s1 s2 s'), E1, E3 by eauto using adv_trans. reflexivity.
    + split; [now apply blanks_ne|]. split; auto.
      apply (line_stop_no_char _ s1 s2 x25 Hs1 A2 Hst). cbn. auto.
Qed.

Definition mbq (s s' : span) (r : nat * option str) : Prop :=
  exists a fence b e, txt s s' = a ++ bs "{{$" ++ fence ++ b ++ e /\ blanks a /\ blanks b /\
    (e = [b_nl] \/ e = [b_cr; b_nl]) /\ fst r = length a /\
    match snd r with
    | None => fence = []
    | Some v => fence = bs "%" ++ v ++ bs "%" /\ v <> [] /\ no_nl v /\ ~ In x25 v
    end.

Lemma G_math_start n : G n beginning_of_math_block mbq.
Proof.
  intros s Hs Hn. unfold beginning_of_math_block.
  gbind (G_indent n) as s1 k Ha1 Hs1 Hn1 (Hb & ->).
  gbind (G_tag n (bs "{{$") ltac:(asc_lit)) as s2 x Ha2 Hs2 Hn2 (Et & _).
  gbind (G_opt n _ _ (G_math_env n)) as s3 env Ha3 Hs3 Hn3 Henv.
  gbind (G_space0 n) as s4 x4 Ha4 Hs4 Hn4 (_ & Hb4 & _).
  gbind (G_line_ending n) as s5 x5 Ha5 Hs5 Hn5 He. rok.
  exists (txt s s1), (txt s2 s3), (txt s3 s4), (txt s4 s5).
  split; [rewrite (txt_app s s1 s5), (txt_app s1 s2 s5), (txt_app s2 s3 s5), (txt_app s3 s4 s5), Et
            by eauto 8 using adv_trans; reflexivity|].
  split; auto. split; auto. split; auto. split; auto. cbn [snd]. destruct env as [v|]; auto.
  destruct Henv as [-> _]. now apply txt_same.
Qed.

Lemma G_math_block n top : G n p_math_block (BQ top BMath).
Proof.
  apply G_BQ. intros s Hs Hn.
  gbind (G_math_start n) as s1 b Ha1 Hs1 Hn1 Hb.
  change end_of_math_block with (fence_end (bs "}}$")).
  gbind (G_many0 n _ _ (G_fence_line n (bs "}}$") ltac:(asc_lit)
           ltac:(exists x7d, (bs "}$"); split; reflexivity)))
    as s2 lines Ha2 Hs2 Hn2 (Hst & _).
  gbind (G_fence_end n (bs "}}$") ltac:(asc_lit) ltac:(discriminate)) as s3 e Ha3 Hs3 Hn3 He.
  destruct He as (c & d1 & d2 & Ec & Hc & Hd1 & Hd2 & -> & Hbole & Hse & Hlt).
  destruct (steps_fence _ _ _ _ Hs1 Hst Hse) as [Hf Hsl].
  apply (R_dedent s3 s3 _ lines (fun ls => MathBlock ls (snd b))); auto using adv_refl.
  intros ls Hls. apply adv_start in Ha1 as L1. apply adv_start in Ha2 as L2.
  split; [lia|]. split; auto. intro Hl.
  assert (Hd : exists x y, d1 ++ d2 = x ++ y /\ blanks x /\ eol_at inner (sp_start s3) y)
    by (exists d1, d2; eauto 8 using lok_adv).
  destruct Hb as (a & fence & b0 & e0 & Ea & K1 & K2 & K3 & K4 & K5).
  cbn [block_ok]. exists a, b0, c, (d1 ++ d2), fence, (txt s1 s2), lines, e0.
  cbn [mb_env mb_lines]. split.
  { change (slice (sp_start s) (sp_start s3) inner) with (txt s s3).
    rewrite (txt_app s s1 s3), (txt_app s1 s2 s3), Ea, Ec by eauto using adv_trans.
    now rewrite <- !app_assoc. }
  rewrite <- K4. repeat (split; [first [assumption | eauto]|]). auto.
Qed.

(** * Code blocks *)

Lemma G_code_lang n :
  G n (map_parser (verify (take_line_until1 (bs " "))
                     (fun sp => negb (existsb (beqb x3d) (remaining sp)))) cow_str)
    (fun s s' l => l = txt s s' /\ l <> [] /\ no_nl l /\ ~ In x20 l /\ ~ In x3d l).
Proof.
  eapply G_weaken.
  - apply G_cow.
    + apply G_verify, (G_take_line_until1 n (bs " ") ltac:(discriminate) ltac:(cbn; lia) eq_refl).
    + cbv beta. intros s s' o Hs Ha ((-> & _) & _). now apply cov_sok.
  - cbv beta. intros s s' v Hs Ha (o & ((-> & (Hnl & Hst) & Hlt) & Hv) & ->).
    rewrite remaining_cov in * by auto. split; auto. split; [now apply blanks_ne|]. split; auto.
    split; [apply (line_stop_no_char _ s s' x20 Hs Ha Hst); cbn; auto|].
    apply negb_true_iff in Hv. intro Hin. rewrite <- not_true_iff_false in Hv. apply Hv.
    apply existsb_exists. exists x3d. split; auto. 
Qed.

Definition kvq (s s' : span) (kv : str * str) : Prop :=
  txt s s' = meta_text kv /\ fst kv <> [] /\ no_nl (fst kv) /\ ~ In x3d (fst kv) /\
  no_nl (snd kv) /\ ~ In x22 (snd kv).

Lemma G_code_pair n :
  G n (separated_pair (map_parser (take_line_until1 (bs "=")) cow_str) (pchar x3d)
         (delimited (pchar x22) (map_parser (take_line_until [x22]) cow_str) (pchar x22))) kvq.
Proof.
  eapply G_weaken.
  - apply G_separated_pair.
    + apply (G_cow_cov _ _ (G_take_line_until1 n (bs "=") ltac:(discriminate) ltac:(cbn; lia) eq_refl)).
    + apply (G_pchar n x3d eq_refl).
    + apply G_delimited; [apply (G_pchar n x22 eq_refl) | | apply (G_pchar n x22 eq_refl)].
      apply (G_cow_cov _ _ (G_take_line_until n [x22] ltac:(discriminate) ltac:(cbn; lia) eq_refl)).
  - cbv beta. intros s s' [k v] Hs Ha (s1 & s2 & x & A1 & A2 & A3 & (E1 & (N1 & L1) & Hlt) & E2 &
      s3 & s4 & y & z & B1 & B2 & B3 & F1 & (E3 & N3 & L3) & F2). cbn [fst snd] in *. subst k v.
    assert (Hs1 : sok s1) by eauto using adv_sok. assert (Hs2 : sok s2) by eauto using adv_sok.
    assert (Hs3 : sok s3) by eauto using adv_sok. unfold kvq, meta_text. cbn [fst snd].
    split; [|split; [|split; [|split; [|split]]]]; auto.
    + rewrite (txt_app s s1 s'), (txt_app s1 s2 s'), (txt_app s2 s3 s'), (txt_app s3 s4 s'), E2, F1, F2
        by eauto 6 using adv_trans. reflexivity.
    + now apply blanks_ne.
    + apply (line_stop_no_char _ s s1 x3d Hs A1 L1). cbn. auto.
    + apply (line_stop_no_char _ s3 s4 x22 Hs3 B2 L3). cbn. auto.
Qed.

Definition metaq (s s' : span) (l : list (str * str)) : Prop :=
  meta_list l (txt s s') /\
  Forall (fun kv => fst kv <> [] /\ no_nl (fst kv) /\ ~ In x3d (fst kv) /\
                    no_nl (snd kv) /\ ~ In x22 (snd kv)) l.

Lemma sep_meta s s1 p l s' :
  sok s -> adv s s1 -> kvq s s1 p ->
  sep_steps (fun s s' (_ : span) => blanks (txt s s')) kvq s1 l s' ->
  metaq s s' (p :: l).
Proof.
  intros Hs Ha [Hp Hk] H. revert s p Hs Ha Hp Hk.
  induction H as [s0|s0 s1 s2 s3 b a l Hs0 A1 Hlt Hb A2 [Hq Hk2] Hst IH]; intros s p Hs Ha Hp Hk.
  - split; [exact Hp | constructor; auto].
  - pose proof (adv_sok _ _ Hs0 A1) as Hs1.
    destruct (IH s1 a Hs1 A2 Hq Hk2) as [M1 M2]. split; [|constructor; auto].
    assert (A3 : adv s2 s3) by (eapply sep_steps_adv; eauto using adv_sok).
    cbn [meta_list]. exists (txt s0 s1), (txt s1 s3). split.
    + rewrite (txt_app s s0 s3), (txt_app s0 s1 s3), Hp by eauto using adv_trans. reflexivity.
    + split; auto. split; [now apply blanks_ne | exact M1].
Qed.

Lemma G_code_meta n :
  G n (separated_list0 space1
         (separated_pair (map_parser (take_line_until1 (bs "=")) cow_str) (pchar x3d)
            (delimited (pchar x22) (map_parser (take_line_until [x22]) cow_str) (pchar x22)))) metaq.
Proof.
  eapply G_weaken.
  - apply (G_separated_list0 n _ _ (fun s s' (_ : span) => blanks (txt s s')) kvq); [|apply G_code_pair].
    eapply G_weaken; [apply G_space1|]. cbv beta. tauto.
  - cbv beta. intros s s' l Hs Ha [[-> ->]|(s1 & a & l' & -> & A1 & Q1 & A2 & Hst)].
    + split; [cbn; now apply txt_same | constructor].
    + eapply sep_meta; eauto.
Qed.

Definition cbq (s s' : span) (r : nat * option str * list (str * str)) : Prop :=
  exists a lang b meta f e pairs, txt s s' = a ++ bs "{{{" ++ lang ++ b ++ meta ++ f ++ e /\
    blanks a /\ blanks b /\ blanks f /\
    (sp_start s' = sp_end s' \/ e = [b_nl] \/ e = [b_cr; b_nl]) /\ fst (fst r) = length a /\
    match snd (fst r) with
    | None => lang = []
    | Some l => lang = l /\ l <> [] /\ no_nl l /\ ~ In x20 l /\ ~ In x3d l
    end /\
    meta_list pairs meta /\
    Forall (fun kv => fst kv <> [] /\ no_nl (fst kv) /\ ~ In x3d (fst kv) /\
                      no_nl (snd kv) /\ ~ In x22 (snd kv)) pairs /\
    last_binding pairs (snd r).

Lemma G_code_start n : G n code_block_start cbq.
Proof.
  intros s Hs Hn. unfold code_block_start.
  gbind (G_indent n) as s1 k Ha1 Hs1 Hn1 (Hb & ->).
  gbind (G_tag n (bs "{{{") ltac:(asc_lit)) as s2 x Ha2 Hs2 Hn2 (Et & _).
  gbind (G_opt n _ _ (G_code_lang n)) as s3 lang Ha3 Hs3 Hn3 Hlang.
  gbind (G_space0 n) as s4 x4 Ha4 Hs4 Hn4 (_ & Hb4 & _).
  gbind (G_code_meta n) as s5 pairs Ha5 Hs5 Hn5 (Hm1 & Hm2).
  gbind (G_space0 n) as s6 x6 Ha6 Hs6 Hn6 (_ & Hb6 & _).
  gbind (G_end_of_line_or_input n) as s7 x7 Ha7 Hs7 Hn7 He. rok.
  exists (txt s s1), (txt s2 s3), (txt s3 s4), (txt s4 s5), (txt s5 s6), (txt s6 s7), pairs.
  split.
  { rewrite (txt_app s s1 s7), (txt_app s1 s2 s7), (txt_app s2 s3 s7), (txt_app s3 s4 s7),
      (txt_app s4 s5 s7), (txt_app s5 s6 s7), Et by eauto 10 using adv_trans. reflexivity. }
  split; auto. split; auto. split; auto. split.
  { destruct He as [[-> He]|He]; auto. }
  split; auto. split.
  { cbn [fst snd]. destruct lang as [l|]; [|destruct Hlang as [-> _]; now apply txt_same].
    destruct Hlang as (-> & K). auto. }
  split; auto. split; auto. apply collect_map_last.
Qed.

Lemma G_code_block n top : G n p_code_block (BQ top BCode).
Proof.
  apply G_BQ. intros s Hs Hn.
  gbind (G_code_start n) as s1 b Ha1 Hs1 Hn1 Hb.
  change code_block_end with (fence_end (bs "}}}")).
  gbind (G_many0 n _ _ (G_fence_line n (bs "}}}") ltac:(asc_lit)
           ltac:(exists x7d, (bs "}}"); split; reflexivity)))
    as s2 lines Ha2 Hs2 Hn2 (Hst & _).
  gbind (G_fence_end n (bs "}}}") ltac:(asc_lit) ltac:(discriminate)) as s3 e Ha3 Hs3 Hn3 He.
  destruct He as (c & d1 & d2 & Ec & Hc & Hd1 & Hd2 & -> & Hbole & Hse & Hlt).
  destruct (steps_fence _ _ _ _ Hs1 Hst Hse) as [Hf Hsl].
  apply (R_dedent s3 s3 _ lines (fun ls => CodeBlock (snd (fst b)) (snd b) ls)); auto using adv_refl.
  intros ls Hls. apply adv_start in Ha1 as L1. apply adv_start in Ha2 as L2.
  split; [lia|]. split; auto. intro Hl.
  assert (Hd : exists x y, d1 ++ d2 = x ++ y /\ blanks x /\ eol_at inner (sp_start s3) y)
    by (exists d1, d2; eauto 8 using lok_adv).
  destruct Hb as (a & lang & b0 & meta & f & e0 & pairs & Ea & K1 & K2 & K3 & K4 & K5 & K6 & K7 & K8 & K9).
  cbn [block_ok]. exists a, lang, b0, meta, f, pairs, e0, (txt s1 s2), lines, c, (d1 ++ d2).
  cbn [cb_lang cb_meta cb_lines]. split.
  { change (slice (sp_start s) (sp_start s3) inner) with (txt s s3).
    rewrite (txt_app s s1 s3), (txt_app s1 s2 s3), Ea, Ec by eauto using adv_trans.
    now rewrite <- !app_assoc. }
  rewrite <- K5. split; auto. split; auto. split; auto. split.
  { destruct K4 as [K4|K4]; auto. exfalso. destruct Ha2 as (_ & E & _). lia. }
  repeat (split; [first [assumption | eauto]|]). auto.
Qed.

End FenceProofs.
