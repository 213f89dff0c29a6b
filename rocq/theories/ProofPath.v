(** Proofs about paths, output files and links. *)
From Coq Require Import Relations.
From Verif Require Import Base ModelSpan ModelAst ModelLink ModelElem ModelPath SpecPath ProofBase ProofElem2.

Lemma comp_eqb_eq a b : comp_eqb a b = true <-> a = b.
Proof.
  destruct a, b; cbn; split; intro H; try discriminate; auto.
  - apply str_eqb_eq in H. now subst.
  - injection H as ->. apply str_eqb_refl.
Qed.

Lemma strip_prefix_nil p : strip_prefix p [] = Some p.
Proof. now destruct p. Qed.

Lemma strip_prefix_spec p base r : strip_prefix p base = Some r <-> p = base ++ r.
Proof.
  revert p. induction base as [|b base IH]; intro p; cbn [app].
  - rewrite strip_prefix_nil. split; [now intros [= ->] | now intros ->].
  - destruct p as [|c p]; [split; discriminate|]. cbn [strip_prefix].
    destruct (comp_eqb b c) eqn:E.
    + apply comp_eqb_eq in E as ->. rewrite IH. split; [intros ->; auto | now intros [= ->]].
    + split; [discriminate|]. intros [= -> _]. rewrite (proj2 (comp_eqb_eq b b) eq_refl) in E. discriminate.
Qed.

Lemma starts_with_iff p base : path_starts_with p base = true <-> prefix_of base p.
Proof.
  unfold path_starts_with, prefix_of. split.
  - destruct (strip_prefix p base) as [r|] eqn:E; [|discriminate]. intros _.
    apply strip_prefix_spec in E. eauto.
  - intros [r E]. apply strip_prefix_spec in E. now rewrite E.
Qed.

(** * Clean paths *)

Lemma forallb_filter_id {A} (f : A -> bool) l : forallb f l = true -> filter f l = l.
Proof.
  induction l as [|x l IH]; cbn; auto. intro H. apply andb_prop in H as [H1 H2].
  now rewrite H1, IH.
Qed.

Lemma drop_cur_id l : ~ In CCur l -> drop_cur l = l.
Proof.
  intro H. unfold drop_cur. apply forallb_filter_id. apply forallb_forall. intros c Hc.
  destruct c; auto.
Qed.

Lemma drop_cur_app a b : drop_cur (a ++ b) = drop_cur a ++ drop_cur b.
Proof. apply filter_app. Qed.

Lemma clean_id l : ~ In CCur (tl l) -> clean l = l.
Proof. destruct l as [|c l]; cbn; auto. intro H. now rewrite drop_cur_id. Qed.

Lemma in_drop_cur l : ~ In CCur (drop_cur l).
Proof. unfold drop_cur. intro H. apply filter_In in H as [_ H]. discriminate. Qed.

Lemma tl_app {A} (a b : list A) : a <> [] -> tl (a ++ b) = tl a ++ b.
Proof. destruct a; [congruence | reflexivity]. Qed.

Lemma clean_app a b : a <> [] -> ~ In CCur (tl a) -> ~ In CCur b -> clean (a ++ b) = a ++ b.
Proof. intros H1 H2 H3. apply clean_id. rewrite tl_app by auto. rewrite in_app_iff. tauto. Qed.

Lemma norm_no_cur names : ~ In CCur (map CNorm names).
Proof. induction names as [|n l IH]; cbn; [tauto|]. intros [H|H]; [discriminate | auto]. Qed.
Lemma norm_no_parent names : ~ In CParent (map CNorm names).
Proof. induction names as [|n l IH]; cbn; [tauto|]. intros [H|H]; [discriminate | auto]. Qed.
Lemma norm_no_root names : ~ In CRoot (map CNorm names).
Proof. induction names as [|n l IH]; cbn; [tauto|]. intros [H|H]; [discriminate | auto]. Qed.

Lemma norm_not_rooted names : has_root (map CNorm names) = false.
Proof. destruct names; reflexivity. Qed.

Lemma join_below p names : ~ In CCur (tl p) -> path_join p (map CNorm names) = p ++ map CNorm names.
Proof.
  intro H. unfold path_join. rewrite norm_not_rooted. destruct p as [|c p].
  - cbn [app]. apply clean_id. intro K. apply (norm_no_cur (tl names)). now destruct names.
  - apply clean_app; auto using norm_no_cur. discriminate.
Qed.

(** * Normalisation *)

Lemma path_parent_snoc p c : c <> CRoot -> path_parent (p ++ [c]) = Some p.
Proof.
  intro H. unfold path_parent. rewrite rev_app_distr. cbn. destruct c; try congruence; now rewrite rev_involutive.
Qed.

Lemma path_pop_norm p s : path_pop (p ++ [CNorm s]) = p.
Proof. unfold path_pop. rewrite path_parent_snoc by discriminate. auto. Qed.

Definition normal (p : path) : Prop :=
  exists names, p = map CNorm names \/ p = CRoot :: map CNorm names.

Lemma normal_snoc p s : normal p -> path_join p [CNorm s] = p ++ [CNorm s] /\ normal (p ++ [CNorm s]).
Proof.
  intros [names E]. split.
  - apply (join_below _ [s]). destruct E as [->| ->]; cbn; [|apply norm_no_cur].
    destruct names; cbn; [tauto | apply norm_no_cur].
  - exists (names ++ [s]). rewrite map_app. destruct E as [->| ->]; auto.
Qed.

Lemma reduces_app_r a b c : reduces a b -> reduces (a ++ c) (b ++ c).
Proof.
  induction 1 as [a b H|a|a b d _ IH1 _ IH2]; [|apply rt_refl | eapply rt_trans; eauto].
  apply rt_step. destruct H; repeat rewrite <- app_assoc; cbn.
  - apply sh_cur.
  - apply sh_up.
  - apply sh_root.
  - apply sh_start.
Qed.

Lemma normal_pop p c : normal p -> normal (path_pop p) /\ reduces (p ++ CParent :: c) (path_pop p ++ c).
Proof.
  intros [names E]. destruct names as [|n names _] using rev_ind.
  - destruct E as [->| ->]; cbn; (split; [exists []; auto|]); apply rt_step; constructor.
  - rewrite map_app in E. cbn in E. destruct E as [->| ->].
    + rewrite path_pop_norm. split; [exists names; auto|]. rewrite <- app_assoc. apply rt_step, sh_up.
    + change (CRoot :: map CNorm names ++ [CNorm n]) with ((CRoot :: map CNorm names) ++ [CNorm n]).
      rewrite path_pop_norm. split; [exists names; auto|]. rewrite <- app_assoc. apply rt_step, sh_up.
Qed.

Lemma normalize_fold p : forall ret, normal ret -> ~ In CRoot p ->
  normal (fold_left normalize_step p ret) /\ reduces (ret ++ p) (fold_left normalize_step p ret).
Proof.
  induction p as [|c p IH]; intros ret Hn Hr; cbn [fold_left].
  - rewrite app_nil_r. split; auto. apply rt_refl.
  - assert (Hr' : ~ In CRoot p) by (intro; apply Hr; now right).
    destruct c as [| | |s]; cbn [normalize_step].
    + exfalso. apply Hr. now left.
    + destruct (IH ret Hn Hr') as [I1 I2]. split; auto.
      eapply rt_trans; [apply rt_step, sh_cur | exact I2].
    + destruct (normal_pop ret p Hn) as [Hp Hs]. destruct (IH _ Hp Hr') as [I1 I2].
      split; auto. eapply rt_trans; eauto.
    + destruct (normal_snoc ret s Hn) as [E Hp]. rewrite E. destruct (IH _ Hp Hr') as [I1 I2].
      split; auto. now rewrite <- app_assoc in I2.
Qed.

Lemma normalize_spec p : rooted_once p ->
  normal (normalize_path p) /\ reduces p (normalize_path p).
Proof.
  intro H. unfold normalize_path. destruct p as [|c p]; [split; [exists []; auto | apply rt_refl]|].
  cbn in H. cbn [fold_left]. destruct c as [| | |s].
  - apply (normalize_fold p [CRoot]); auto. exists []; auto.
  - destruct (normalize_fold p []) as [I1 I2]; auto; [exists []; auto|]. split; auto.
    eapply rt_trans; [apply rt_step, (sh_cur []) | exact I2].
  - destruct (normalize_fold p []) as [I1 I2]; auto; [exists []; auto|]. split; auto.
    eapply rt_trans; [apply rt_step, sh_start | exact I2].
  - apply (normalize_fold p [CNorm s]); auto. exists [s]; auto.
Qed.

Lemma normal_dot_free p : normal p -> dot_free p.
Proof.
  intros [names [->| ->]]; split; cbn; auto using norm_no_cur, norm_no_parent;
    intros [H|H]; try discriminate; revert H; auto using norm_no_cur, norm_no_parent.
  - apply norm_no_cur.
  - apply norm_no_parent.
Qed.

Lemma normalize_id p : dot_free p -> rooted_once p -> normalize_path p = p.
Proof.
  intros [H1 H2] H3.
  assert (F : forall l ret, normal ret -> ~ In CCur l -> ~ In CParent l -> ~ In CRoot l ->
                fold_left normalize_step l ret = ret ++ l).
  { induction l as [|c l IH]; intros ret Hn K1 K2 K3; cbn [fold_left]; [now rewrite app_nil_r|].
    destruct c as [| | |s]; try (exfalso; cbn in *; tauto). cbn [normalize_step].
    destruct (normal_snoc ret s Hn) as [E Hn']. rewrite E, IH; auto; [now rewrite <- app_assoc|..];
      intro K; [apply K1 | apply K2 | apply K3]; now right. }
  unfold normalize_path. destruct p as [|c p]; auto. cbn in H1, H2, H3. cbn [fold_left].
  destruct c as [| | |s]; try tauto; cbn [normalize_step].
  - apply (F p [CRoot]); auto. exists []; auto.
  - apply (F p [CNorm s]); auto. exists [s]; auto.
Qed.

Lemma normalize_idem p : rooted_once p -> normalize_path (normalize_path p) = normalize_path p.
Proof.
  intro H. destruct (normalize_spec p H) as [Hn _]. apply normalize_id; [now apply normal_dot_free|].
  destruct Hn as [names [->| ->]]; unfold rooted_once; cbn.
  - destruct names; cbn; [tauto | apply norm_no_root].
  - apply norm_no_root.
Qed.

(** * File names *)

Lemma find_pos_none {A} (p : A -> bool) l : (forall x, In x l -> p x = false) -> find_pos p l = None.
Proof.
  induction l as [|x l IH]; intro H; cbn; auto. rewrite (H x (or_introl eq_refl)), IH; auto.
  intros y Hy. apply H. now right.
Qed.

Lemma find_pos_at {A} (p : A -> bool) a x b :
  (forall y, In y a -> p y = false) -> p x = true -> find_pos p (a ++ x :: b) = Some (length a).
Proof.
  induction a as [|y a IH]; intros H Hx; cbn; [now rewrite Hx|].
  rewrite (H y (or_introl eq_refl)), IH; auto. intros z Hz. apply H. now right.
Qed.

Lemma dot_false s : no_dot s -> forall y, In y s -> beqb y x2e = false.
Proof. intros H y Hy. destruct (beqb_spec y x2e) as [->|]; auto. now exfalso. Qed.

Lemma rsplit_plain s : no_dot s -> rsplit_dot s = (s, None).
Proof.
  intro H. unfold rsplit_dot. rewrite find_pos_none; auto.
  intros x Hx. apply in_rev in Hx. now apply (dot_false s).
Qed.

Lemma rsplit_dotted n e : n <> [] -> no_dot e -> rsplit_dot (dotted n e) = (n, Some e).
Proof.
  intros Hn He. unfold rsplit_dot, dotted.
  rewrite !rev_app_distr. cbn [bs rev app].
  change (rev (bs ".")) with [x2e]. rewrite <- app_assoc. cbn [app].
  rewrite find_pos_at.
  - rewrite rev_length, !app_length. change (length (bs ".")) with 1.
    replace (length n + (1 + length e) - 1 - length e) with (length n) by lia.
    rewrite firstn_app, Nat.sub_diag, firstn_all, app_nil_r.
    destruct n as [|b n]; [congruence|].
    change (bs ".") with [x2e]. cbn [app].
    replace (S (length (b :: n))) with (length ((b :: n) ++ [x2e])) by (rewrite app_length; cbn; lia).
    rewrite app_comm_cons. change (x2e :: e) with ([x2e] ++ e). rewrite app_assoc.
    now rewrite skipn_app, skipn_all, Nat.sub_diag.
  - intros y Hy. apply in_rev in Hy. now apply (dot_false e).
  - reflexivity.
Qed.

Lemma rsplit_fst n : n <> [] -> fst (rsplit_dot n) <> [].
Proof.
  intro H. unfold rsplit_dot. destruct (find_pos _ _) as [i|]; auto.
  destruct (firstn _ n) eqn:E; cbn; auto. congruence.
Qed.

(** What remains of a name after its extension is replaced. *)
Lemma rsplit_cases n : n <> [] ->
  (rsplit_dot n = (n, None)) \/
  (exists st e, n = dotted st e /\ st <> [] /\ no_dot e /\ rsplit_dot n = (st, Some e)).
Proof.
  intro H. unfold rsplit_dot. destruct (find_pos _ _) as [i|] eqn:E; auto.
  assert (Hsp : exists a b, rev n = a ++ x2e :: b /\ no_dot a /\ length a = i).
  { clear H. revert i E. generalize (rev n). intro l. induction l as [|x l IH]; cbn; intros i E; [discriminate|].
    destruct (beqb_spec x x2e) as [->|Hx].
    - injection E as <-. exists [], l. repeat split; auto. intros [].
    - destruct (find_pos _ l) as [j|]; [|discriminate]. injection E as <-.
      destruct (IH j eq_refl) as (a & b & -> & Ha & <-). exists (x :: a), b. repeat split; auto.
      intros [K|K]; auto. }
  destruct Hsp as (a & b & Er & Ha & <-).
  assert (En : n = rev b ++ [x2e] ++ rev a).
  { rewrite <- (rev_involutive n), Er, rev_app_distr. cbn. now rewrite <- app_assoc. }
  assert (Hd : no_dot (rev a)) by (intro K; apply Ha; now apply in_rev).
  destruct (list_eq_dec Byte.byte_eq_dec (rev b) []) as [Eb|Eb].
  - left. replace (length n - 1 - length a) with 0; [reflexivity|].
    rewrite En, !app_length, Eb, rev_length. cbn. lia.
  - right. exists (rev b), (rev a). repeat split; auto.
    pose proof (rsplit_dotted (rev b) (rev a) Eb Hd) as R.
    unfold rsplit_dot, dotted in R. change (bs ".") with [x2e] in R.
    rewrite <- En, E in R. exact R.
Qed.

Lemma classify_name s : s <> bs "." -> s <> bs ".." -> classify s = CNorm s.
Proof.
  intros H1 H2. unfold classify. destruct (str_eqb s (bs ".")) eqn:E1; [apply str_eqb_eq in E1; congruence|].
  destruct (str_eqb s (bs "..")) eqn:E2; [apply str_eqb_eq in E2; congruence | auto].
Qed.

Lemma dotted_len n e : n <> [] -> e <> [] -> 3 <= length (dotted n e).
Proof.
  intros H1 H2. unfold dotted. rewrite !app_length. change (length (bs ".")) with 1.
  destruct n; [congruence|]. destruct e; [congruence|]. cbn. lia.
Qed.

Lemma dotted_name n e : n <> [] -> e <> [] -> ~ In x2f n -> ~ In x2f e -> name_ok (dotted n e).
Proof.
  intros H1 H2 H3 H4. pose proof (dotted_len n e H1 H2) as L. repeat split.
  - intro K. rewrite K in L. cbn in L. lia.
  - intro K. rewrite K in L. cbn in L. lia.
  - intro K. rewrite K in L. cbn in L. lia.
  - unfold dotted. rewrite !in_app_iff. intros [K|[K|K]]; auto. cbn in K. destruct K as [K|[]]. discriminate.
Qed.

Lemma dotted_classify n e : n <> [] -> e <> [] -> classify (dotted n e) = CNorm (dotted n e).
Proof.
  intros H1 H2. pose proof (dotted_len n e H1 H2) as L.
  apply classify_name; intro K; rewrite K in L; cbn in L; lia.
Qed.

Lemma with_extension_last p n e : p <> [] -> ~ In CCur (tl p) -> n <> [] -> e <> [] ->
  with_extension (p ++ [CNorm n]) e = p ++ [CNorm (dotted (fst (rsplit_dot n)) e)].
Proof.
  intros Hp Hc Hn He. unfold with_extension, file_stem, file_name.
  rewrite rev_app_distr. cbn [rev app option_map]. rewrite removelast_last.
  destruct e as [|b e]; [congruence|].
  change (classify (fst (rsplit_dot n) ++ bs "." ++ b :: e)) with (classify (dotted (fst (rsplit_dot n)) (b :: e))).
  rewrite dotted_classify; auto using rsplit_fst. apply clean_app; auto.
  intros [K|[]]. discriminate.
Qed.

(** * Output files *)

Lemma make_path_relative_below c : ~ In CRoot c -> make_path_relative c = clean c.
Proof.
  intro H. unfold make_path_relative. f_equal. apply forallb_filter_id, forallb_forall.
  intros x Hx. destruct x; auto. 
Qed.

Lemma clean_nonroot c : ~ In CRoot c -> ~ In CRoot (clean c).
Proof.
  destruct c as [|x c]; cbn; auto. intros H [K|K]; [apply H; now left|].
  apply filter_In in K as [K _]. apply H. now right.
Qed.

Lemma clean_clean_app a b : clean (clean a ++ b) = clean (a ++ b).
Proof.
  destruct a as [|x a]; cbn; auto. rewrite !drop_cur_app. f_equal. f_equal.
  apply drop_cur_id, in_drop_cur.
Qed.

Lemma drop_cur_idem a : drop_cur (drop_cur a) = drop_cur a.
Proof. apply drop_cur_id, in_drop_cur. Qed.

Lemma drop_cur_clean b : drop_cur (clean b) = drop_cur b.
Proof.
  destruct b as [|y b]; auto. unfold clean. change (y :: drop_cur b) with ([y] ++ drop_cur b).
  change (y :: b) with ([y] ++ b). now rewrite !drop_cur_app, drop_cur_idem.
Qed.

Lemma clean_app_clean a b : a <> [] -> clean (a ++ clean b) = clean (a ++ b).
Proof.
  destruct a as [|x a]; [congruence|]. intros _. cbn [app clean].
  now rewrite !drop_cur_app, drop_cur_clean.
Qed.

Lemma clean_clean a : clean (clean a) = clean a.
Proof. destruct a as [|x a]; auto. cbn [clean]. now rewrite drop_cur_idem. Qed.

Lemma root_app_clean names r : clean (at_root names ++ r) = at_root names ++ drop_cur r.
Proof.
  unfold at_root. cbn. rewrite drop_cur_app. f_equal. f_equal. apply drop_cur_id, norm_no_cur.
Qed.

Lemma root_join names r : ~ In CRoot r -> path_join (at_root names) r = at_root names ++ drop_cur r.
Proof.
  intro H. unfold path_join. assert (E : has_root r = false).
  { destruct r as [|c r]; auto. destruct c; auto. exfalso. apply H. now left. }
  now rewrite E, root_app_clean.
Qed.

Lemma root_tl_cur names : ~ In CCur (tl (at_root names)).
Proof. apply norm_no_cur. Qed.

(** The part of an input below the wiki. *)
Definition input_rel (w : wiki) (input rel : path) : Prop :=
  (input = w_path w ++ rel) \/
  (~ prefix_of (w_path w) input /\ rel = drop_cur (make_path_relative input)) \/
  (has_root input = false /\ rel = drop_cur (make_path_relative input)).

Lemma drop_cur_nonroot c : ~ In CRoot c -> ~ In CRoot (drop_cur c).
Proof. intros H K. apply filter_In in K as [K _]. auto. Qed.

Lemma make_output_rel w wp hp input rel ext :
  w_path w = at_root wp -> w_html w = at_root hp ->
  input_rel w input rel -> ~ In CRoot rel -> ~ In CCur rel ->
  make_output_path w input ext = Some (with_extension (at_root hp ++ rel) ext).
Proof.
  intros Hp Hh Hr Hroot Hcur. unfold make_output_path.
  assert (E : (if negb (has_root input) || negb (path_starts_with input (w_path w))
               then path_join (w_path w) (make_path_relative input) else input) = w_path w ++ rel).
  { assert (Q : ~ In CRoot (make_path_relative input)).
    { unfold make_path_relative. apply clean_nonroot. intro K. apply filter_In in K as [_ K]. discriminate. }
    destruct Hr as [->|[[H1 H2]|[H1 H2]]].
    - assert (R : has_root (w_path w ++ rel) = true) by (rewrite Hp; reflexivity).
      rewrite R, (proj2 (starts_with_iff _ _)); [reflexivity | now exists rel].
    - assert (R : path_starts_with input (w_path w) = false).
      { destruct (path_starts_with input (w_path w)) eqn:R; auto. apply starts_with_iff in R. now exfalso. }
      rewrite R, orb_true_r, Hp, root_join, H2; auto.
    - rewrite H1. cbn [negb orb]. now rewrite Hp, root_join, H2. }
  rewrite E, (proj2 (strip_prefix_spec _ _ rel)) by auto.
  rewrite Hh, root_join by auto. now rewrite drop_cur_id.
Qed.

Lemma make_output_total w wp hp input ext :
  w_path w = at_root wp -> w_html w = at_root hp ->
  exists rel, make_output_path w input ext = Some (with_extension (path_join (w_html w) rel) ext).
Proof.
  intros Hp Hh. unfold make_output_path.
  destruct (negb (has_root input) || negb (path_starts_with input (w_path w))) eqn:E.
  - rewrite Hp, root_join.
    + rewrite (proj2 (strip_prefix_spec _ _ _) eq_refl). eauto.
    + unfold make_path_relative. apply clean_nonroot. intro K. apply filter_In in K as [_ K]. discriminate.
  - apply orb_false_iff in E as [_ E]. apply negb_false_iff in E. unfold path_starts_with in E.
    destruct (strip_prefix input (w_path w)) as [r|]; [eauto | discriminate].
Qed.

Lemma norm_drop names : drop_cur (map CNorm names) = map CNorm names.
Proof. apply drop_cur_id, norm_no_cur. Qed.

Lemma below_relative names : make_path_relative (below names) = below names.
Proof.
  rewrite make_path_relative_below by apply norm_no_root. apply clean_id.
  destruct names; cbn; [tauto | apply norm_no_cur].
Qed.

Lemma at_root_app a b : at_root (a ++ b) = at_root a ++ below b.
Proof. unfold at_root, below. rewrite map_app. reflexivity. Qed.

(** The output of a page given by its names below the wiki. *)
Lemma page_output w wp hp input dirs n ext :
  w_path w = at_root wp -> w_html w = at_root hp ->
  input = at_root (wp ++ dirs ++ [n]) \/ input = below (dirs ++ [n]) ->
  n <> [] -> ext <> [] ->
  make_output_path w input ext = Some (at_root (hp ++ dirs ++ [dotted (fst (rsplit_dot n)) ext])).
Proof.
  intros Hp Hh Hi Hn He.
  rewrite (make_output_rel w wp hp input (below (dirs ++ [n])) ext); auto.
  - unfold below. rewrite map_app. cbn [map]. rewrite app_assoc, with_extension_last; auto.
    + rewrite !at_root_app. unfold below. rewrite !map_app. cbn. now rewrite <- app_assoc.
    + discriminate.
    + unfold at_root. cbn. rewrite in_app_iff. intros [K|K]; revert K; apply norm_no_cur.
  - destruct Hi as [->| ->]; [left; rewrite at_root_app, Hp; auto|].
    right. right. rewrite below_relative. split; [apply norm_not_rooted | symmetry; apply norm_drop].
  - apply norm_no_root.
  - apply norm_no_cur.
Qed.

Lemma dotted_inj_name a b e : dotted a e = dotted b e -> a = b.
Proof. unfold dotted. apply app_inv_tail. Qed.

(** Different pages of a wiki have different outputs. *)
Lemma outputs_differ w wp hp ds1 n1 ds2 n2 e ext :
  w_path w = at_root wp -> w_html w = at_root hp -> n1 <> [] -> n2 <> [] -> no_dot e -> ext <> [] ->
  make_output_path w (at_root (wp ++ ds1 ++ [dotted n1 e])) ext =
  make_output_path w (at_root (wp ++ ds2 ++ [dotted n2 e])) ext ->
  ds1 = ds2 /\ n1 = n2.
Proof.
  intros Hp Hh H1 H2 He Hx.
  assert (D : forall n, n <> [] -> dotted n e <> []).
  { intros n Hn K. apply (f_equal (@length _)) in K. unfold dotted in K. rewrite !app_length in K.
    destruct n; [congruence | cbn in K; lia]. }
  rewrite (page_output w wp hp _ ds1 (dotted n1 e) ext), (page_output w wp hp _ ds2 (dotted n2 e) ext); auto.
  rewrite !rsplit_dotted by auto. cbn [fst]. intros [= E].
  apply (f_equal (map (fun c => match c with CNorm s => s | _ => [] end))) in E. rewrite !map_map, !map_id in E.
  apply app_inv_head in E. apply app_inj_tail in E as [-> E]. split; auto. now apply dotted_inj_name in E.
Qed.

(** * The way to the root *)

Lemma within_root w wp p : w_path w = at_root wp -> path_within w (at_root (wp ++ p)) = Some (below p).
Proof. intro H. unfold path_within. rewrite strip_prefix_spec, H. apply at_root_app. Qed.

Lemma path_to_root_spec w wp dirs n : w_path w = at_root wp ->
  path_to_root w (at_root (wp ++ dirs ++ [n])) = Some (repeat CParent (length dirs)).
Proof.
  intro H. unfold path_to_root. rewrite (within_root w wp) by auto. unfold below.
  rewrite map_length, app_length. cbn [length].
  replace (length dirs + 1) with (S (length dirs)) by lia. cbn [Nat.ltb Nat.leb].
  now rewrite Nat.sub_1_r.
Qed.

(** * The wiki of a page *)

Lemma max_by_key_some {A} (key : A -> nat) l x : max_by_key key l = Some x ->
  In x l /\ forall y, In y l -> key y <= key x.
Proof.
  revert x. induction l as [|a l IH]; cbn [max_by_key]; intros x E; [discriminate|].
  destruct (max_by_key key l) as [y|] eqn:M.
  - destruct (IH y eq_refl) as [I1 I2]. destruct (key y <? key a) eqn:L; injection E as <-.
    + apply Nat.ltb_lt in L. split; [now left|]. intros z [->|Hz]; auto. specialize (I2 z Hz). lia.
    + apply Nat.ltb_ge in L. split; [now right|]. intros z [->|Hz]; auto.
  - injection E as <-. destruct l as [|b l]; [|cbn [max_by_key] in M; destruct (max_by_key key l) as [y|]; [destruct (key y <? key b)|]; discriminate].
    split; [now left|]. intros z [->|[]]; auto.
Qed.

Lemma max_by_key_none {A} (key : A -> nat) l : max_by_key key l = None -> l = [].
Proof.
  destruct l as [|b l]; auto. cbn [max_by_key].
  destruct (max_by_key key l) as [y|]; [destruct (key y <? key b)|]; discriminate.
Qed.

Lemma enumerate_in {A} (l : list A) i x : In (i, x) (enumerate l) <-> nth_error l i = Some x.
Proof.
  unfold enumerate.
  assert (G : forall k, In (i, x) (combine (seq k (length l)) l) <-> exists j, i = k + j /\ nth_error l j = Some x).
  { induction l as [|a l IH]; intro k; cbn.
    - split; [intros [] | intros ([|j] & _ & K); discriminate].
    - rewrite IH. split.
      + intros [E|(j & -> & K)]; [|exists (S j); split; auto; lia].
        injection E as -> ->. exists 0. split; auto; lia.
      + intros ([|j] & -> & K); [|right; exists j; split; auto; lia].
        left. cbn in K. injection K as ->. f_equal. lia. }
  rewrite G. split; [now intros (j & -> & K) | intro K; exists i; auto].
Qed.

Lemma find_wiki_some c p i : find_wiki_index_by_path c p = Some i ->
  exists w, nth_error (pc_wikis c) i = Some w /\ prefix_of (w_path w) p /\
    forall w', In w' (pc_wikis c) -> prefix_of (w_path w') p -> length (w_path w') <= length (w_path w).
Proof.
  unfold find_wiki_index_by_path. destruct (max_by_key _ _) as [[j w]|] eqn:E; [|discriminate].
  intros [= <-]. apply max_by_key_some in E as [E1 E2]. apply filter_In in E1 as [E1 E3].
  cbn in E3. exists w. repeat split.
  - now apply enumerate_in.
  - now apply starts_with_iff.
  - intros w' Hw Hpre. apply In_nth_error in Hw as [k Hk].
    apply (E2 (k, w')). apply filter_In. split; [now apply enumerate_in | now apply starts_with_iff].
Qed.

Lemma find_wiki_none c p : find_wiki_index_by_path c p = None ->
  forall w, In w (pc_wikis c) -> ~ prefix_of (w_path w) p.
Proof.
  unfold find_wiki_index_by_path. destruct (max_by_key _ _) as [[j w]|] eqn:E; [discriminate|].
  intros _ w Hw Hp. apply max_by_key_none in E. apply In_nth_error in Hw as [k Hk].
  assert (K : In (k, w) []); [|destruct K]. rewrite <- E. apply filter_In.
  split; [now apply enumerate_in | now apply starts_with_iff].
Qed.
