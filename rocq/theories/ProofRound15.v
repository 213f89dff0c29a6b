(** Reading back definition lists. *)
From Verif Require Import Base ModelSpan ModelComb ModelAst ModelTable ModelLink ModelInline ModelBlock ModelElem
  SpecDoc SpecBlock SpecTree SpecSpan SpecEq SpecRound ProofBase ProofBytes ProofContract ProofPrim ProofInline ProofLink ProofText
  ProofBlock ProofFence ProofDefs ProofTable ProofList ProofPage ProofTree ProofClaims2 ProofSpan ProofRound ProofRound2 ProofRound3
  ProofRound4 ProofRound5 ProofRound6 ProofRound7 ProofRound8 ProofRound9 ProofRound13.
From Verif Require SpecVw.
Local Open Scope nat_scope.

(** * Containers that show the same text *)

Lemma desc_keeps d : desc_display (n_desc (fun u => u) d) = desc_display d
with data_keeps d : link_data_display (n_data (fun u => u) d) = link_data_display d.
Proof.
  - destruct d as [t|x]; [reflexivity|exact (data_keeps x)].
  - destruct d as [u [d|] p]; [exact (desc_keeps d)|reflexivity].
Qed.
Lemma link_keeps l : link_display (n_link (fun u => u) l) = link_display l.
Proof.
  destruct l as [d|i d|n d|t d|d|d]; try exact (data_keeps d).
  destruct d as [u [d|] p]; [exact (desc_keeps d)|reflexivity].
Qed.
Lemma dc_keeps c : dcontent_display (n_dc (fun u => u) nowhere c) = dcontent_display c.
Proof.
  induction c as [t|k cs IH|k|l] using dcontent_ind'; try reflexivity; [|exact (link_keeps l)].
  cbn [n_dc dcontent_display]. induction IH as [|x cs Hx _ IHl]; [reflexivity|]. cbn [map flat_map]. rewrite IHl. f_equal. exact Hx.
Qed.
Lemma cont_keeps c : container_display (n_cont (fun u => u) nowhere c) = container_display c.
Proof.
  unfold container_display, n_cont. induction c as [|x c IH]; [reflexivity|]. cbn [map flat_map]. rewrite IH. f_equal.
  destruct x as [[t|k cs|k|l|ts|t|t|m] r]; try reflexivity; [exact (dc_keeps (DCDeco k cs))|exact (link_keeps l)].
Qed.

(** * Finding the double colon *)

Lemma first_stop_lit p a r : no_nl a -> (forall x y, a ++ removelast p <> x ++ p ++ y) -> p <> [] -> no_nl p ->
  first_stop [p] (a ++ p ++ r) (length a).
Proof.
  intros Na Np Hp Nlp. split; [rewrite app_length; lia|]. split.
  - intros k Hk. assert (Hb : nth_error (a ++ p ++ r) (length a) <> Some b_nl).
    { rewrite nth_error_app2, Nat.sub_diag by lia. destruct p as [|c p]; [congruence|]. cbn. intro E. injection E as ->. apply Nlp. now left. }
    split.
    + intros [H|H].
      * apply found_nth in H. rewrite nth_error_app1 in H by auto. apply nth_error_In in H. now apply Na.
      * apply found2_nth in H as [_ H]. destruct (Nat.lt_ge_cases (S k) (length a)) as [L|L].
        { rewrite nth_error_app1 in H by auto. apply nth_error_In in H. now apply Na. }
        replace (S k) with (length a) in H by lia. contradiction.
    + intros q [<-|[]] (x & y & E & Lx).
      assert (E2 : (a ++ removelast p) ++ [last p b_nl] ++ r = (x ++ p) ++ y).
      { rewrite <- app_assoc, (app_assoc (removelast p)), <- (app_removelast_last b_nl Hp), <- (app_assoc x). exact E. }
      apply app_eq_app in E2 as (m & [[E1 _]|[E1 _]]).
      * apply (Np x m). now rewrite app_assoc.
      * destruct m as [|c m]; [apply (Np x []); rewrite app_nil_r in *; now rewrite E1|].
        apply (f_equal (@length byte)) in E1. rewrite !app_length in E1. cbn [length] in E1.
        assert (Lp : length (removelast p) = length p - 1).
        { rewrite (app_removelast_last b_nl Hp) at 2. rewrite app_length. cbn. lia. }
        lia.
  - right. right. exists p. split; [now left|]. exists a, r. auto.
Qed.
Lemma literal_free T w r q : ~ In x3a w -> T ++ x3a :: q = w ++ r -> exists r', T = w ++ r'.
Proof.
  intros N E. apply app_eq_app in E as (m & [[E1 E2]|[E1 E2]]); [now exists m|]. destruct m as [|c m].
  - exists []. now rewrite app_nil_r in *.
  - cbn in E2. injection E2 as <- _. exfalso. apply N. rewrite E1. apply in_or_app. right. now left.
Qed.
Lemma not_colons T q : absent (bs "::") (T ++ bs ":") -> T <> [] -> forall r, T ++ x3a :: q <> bs "::" ++ r.
Proof.
  intros A N r E. destruct T as [|c [|d T]]; [congruence| |].
  - cbn in E. injection E as -> _. apply (A [] []). reflexivity.
  - cbn in E. injection E as -> -> _. apply (A [] (T ++ bs ":")). reflexivity.
Qed.

Lemma trimmed_ws t c r : str_trim t = t -> t = c :: r -> is_ascii_ws c = false.
Proof.
  intros E ->. apply str_trim_id in E as [N _].
  assert (W : ~ SpecVw.white_char [c]) by (intro W; apply N; exists [c], r; auto).
  destruct (is_ascii_ws c) eqn:S; auto. exfalso. apply W. destruct c; try discriminate; unfold SpecVw.white_char; cbn; auto 10.
Qed.

Lemma trim_start_none s c r : sees s (c :: r) -> is_ascii_ws c = false -> trim_start s = s.
Proof.
  intros [[H _] E] N. unfold trim_start. rewrite E. cbn [count_while]. rewrite N. unfold advance_start_by. destruct s as [i a b d]. cbn [sp_start sp_end sp_inner sp_depth] in *.
  rewrite Nat.add_0_r. destruct (Nat.ltb_spec b a); [lia|reflexivity].
Qed.

Section Defs.
Variable up : str -> option uri.
Variable dp : str -> option date.
Variable lossy : str -> str.
(** The scheme of a URI is the text before its first colon. *)
Hypothesis Hsch : forall t u s, up t = Some u -> u_scheme u = Some s -> In s web_schemes ->
  exists w r, t = w ++ bs ":" ++ r /\ map lower w = s.
Local Notation cont_src := (cont_src lossy).
Local Notation cont_fine := (cont_fine up dp lossy).
Local Notation td_lines := (td_lines lossy).
Local Notation td_fine := (td_fine up dp lossy).
Local Notation def_line := (def_line lossy).

(** Some definition list parsers need a double colon on the line. *)
Definition no_defs_here (k : str) : Prop := exists ln r, k = ln ++ r /\ line_end r /\ absent (bs "::") ln.

Lemma container_part c s tail : sees s (cont_src c ++ tail) -> ctxt s [] -> cont_fine c ->
  got (tk (length (cont_src c)) s) (container_inner up dp (tk (length (cont_src c)) s)) (length (cont_src c)) (fun x => same_cont x c).
Proof.
  intros H X F. apply (inner_run up dp lossy Hsch c _ []); [|now left| |exact F].
  - rewrite app_nil_r. exact (sees_tk _ _ _ H).
  - exact X.
Qed.
Lemma got_map_parser {B} (p : parser span) (q : parser B) s n m P :
  p s = Ok (mv n s) (tk n s) -> got (tk n s) (q (tk n s)) m P -> got s (map_parser p q s) n P.
Proof. intros E G. unfold map_parser. rewrite E. cbn [bind]. destruct (q (tk n s)); cbn in *; auto. now destruct G. Qed.
Lemma cont_head c : cont_fine c -> exists x t, cont_src c = x :: t /\ is_space x = false /\ x <> b_nl /\ x <> b_cr.
Proof.
  intro F. pose proof (cont_ne up dp lossy Hsch c F) as Ne. destruct (cont_src c) as [|x t] eqn:E; [congruence|]. exists x, t. split; auto.
  apply (trimmed_head (x :: t) x t); auto. rewrite <- E. apply F.
Qed.
Lemma cont_whole_line c k : cont_fine c -> whole_line (cont_src c) (b_nl :: k).
Proof.
  intros (_ & _ & _ & F1 & F2). apply whole_nl; auto. intros x E. destruct (trimmed_last _ _ _ F2 E) as (_ & _ & N). congruence.
Qed.
(** The rest of a line with a definition. *)
Lemma def_rest d s k : sees s (b_sp :: cont_src d ++ b_nl :: k) -> cont_fine d ->
  space1 s = Ok (mv 1 s) (tk 1 s) /\
  got (mv 1 s) (map_parser take_until_end_of_line_or_input (container_inner up dp) (mv 1 s)) (length (cont_src d)) (fun x => same_cont x d).
Proof.
  intros H F. destruct (cont_head d F) as (x & t & E & N1 & _). split.
  - apply (space1_run s [b_sp] (cont_src d ++ b_nl :: k)); auto; [repeat constructor|discriminate|].
    intros c r Ec. rewrite E in Ec. injection Ec as <- _. exact N1.
  - pose proof (sees_mv s [b_sp] _ H) as H1. change (length [b_sp]) with 1 in H1.
    eapply got_map_parser; [exact (until_eol_run _ _ _ H1 (cont_whole_line d k F))|].
    exact (container_part d _ _ H1 (ctxt_sp s _ H) F).
Qed.
Lemma term_line_run t d s ind k : sees s (ind ++ cont_src t ++ bs ":: " ++ cont_src d ++ b_nl :: k) -> blanks ind -> ctxt s [] ->
  cont_fine t -> term_plain (cont_src t) -> cont_fine d ->
  got s (term_line up dp s) (length (ind ++ cont_src t ++ bs ":: " ++ cont_src d) + 1)
    (fun r => same_cont (l_val (fst r)) t /\ exists y, snd r = Some y /\ same_cont (l_val y) d).
Proof.
  intros H B X Ft (P1 & P2 & P3) Fd. destruct (cont_head t Ft) as (x & q & E & N1 & N2 & N3). unfold term_line.
  assert (Hd : nonblank_head (cont_src t ++ bs ":: " ++ cont_src d ++ b_nl :: k)) by (intros c r Ec; rewrite E in Ec; injection Ec as <- _; exact N1).
  rewrite (space0_run s ind _ H B Hd). cbn [bind].
  assert (EL : length (ind ++ cont_src t ++ bs ":: " ++ cont_src d) + 1 = length ind + (length (cont_src t) + 2 + ((1 + length (cont_src d)) + (1 + 0)))).
  { rewrite !app_length. change (length (bs ":: ")) with 3. unfold str. lia. }
  rewrite EL. clear EL. apply got_shift. pose proof (sees_mv _ _ _ H) as H1. pose proof (ctxt_blanks s ind _ H B X) as X1. set (s1 := mv (length ind) s) in *.
  assert (Nt : no_nl (cont_src t)) by apply Ft.
  eapply (got_bind s1 _ _ (fun r => same_cont (l_val r) t)).
  { apply (got_located s1 _ _ (fun c => same_cont c t)). unfold terminated. eapply got_bind.
    - eapply got_map_parser; [|exact (container_part t _ _ H1 X1 Ft)]. unfold verify.
      rewrite (tlu1_run (bs "::") s1 (cont_src t) (bs "::" ++ b_sp :: cont_src d ++ b_nl :: k)).
      + cbn [bind].
        assert (Ht : starts_with (bs "%%") (remaining (trim_start (tk (length (cont_src t)) s1))) = false).
        { pose proof (sees_tk _ _ _ H1) as H2. assert (Et : trim_start (tk (length (cont_src t)) s1) = tk (length (cont_src t)) s1).
          { pose proof H2 as H2'. rewrite E in H2' at 2. apply (trim_start_none _ x q H2'). apply (trimmed_ws (cont_src t) x q); [apply Ft|exact E]. }
          rewrite Et, (proj2 H2). destruct (starts_with (bs "%%") (cont_src t)) eqn:Es; [|reflexivity].
          apply starts_with_spec in Es as [r Es]. exfalso. apply (P2 (bs "%%") r); [cbn; auto|exact Es]. }
        rewrite Ht. reflexivity.
      + exact H1.
      + rewrite E. discriminate.
      + discriminate.
      + cbn. lia.
      + apply first_stop_lit; [exact Nt|exact P1|discriminate|nonl].
    - intros c Hc. pose proof (sees_mv _ _ _ H1) as H2. rewrite (tag_run (bs "::") _ _ H2). cbn [bind].
      split; [reflexivity|exact Hc]. }
  intros r Hr. pose proof (sees_mv _ _ _ (sees_mv _ _ _ H1 : sees _ (bs "::" ++ b_sp :: cont_src d ++ b_nl :: k))) as H2. rewrite mv_mv in H2.
  change (length (bs "::")) with 2 in H2. set (s2 := mv (length (cont_src t) + 2) s1) in *.
  destruct (def_rest d s2 k H2 Fd) as [D1 D2].
  eapply (got_bind s2 _ _ (fun o => exists y, o = Some y /\ same_cont (l_val y) d)).
  { eapply got_opt_some. apply (got_located s2 _ _ (fun c => same_cont c d)). unfold preceded. rewrite D1. cbn [bind]. apply got_shift. exact D2. }
  intros o (y & -> & Hy).
  assert (H3 : sees (mv (1 + length (cont_src d)) s2) (b_nl :: k)).
  { rewrite <- mv_mv. exact (sees_mv (mv 1 s2) (cont_src d) _ (sees_mv s2 [b_sp] _ H2)). }
  set (s3 := mv (1 + length (cont_src d)) s2) in *.
  eapply (got_bind s3 _ _ (fun _ => True)).
  - unfold pair. rewrite (space0_none s3 _ H3) by (intros c z Ez; injection Ez as <- _; reflexivity). cbn [bind].
    rewrite (eol_run_nl s3 k H3). cbn [bind]. now apply got_ok.
  - intros u _. apply got_ret. cbn [fst snd]. eauto.
Qed.
Lemma def_line_run d s ind k : sees s (ind ++ bs ":: " ++ cont_src d ++ b_nl :: k) -> blanks ind -> cont_fine d ->
  got s (definition_line up dp s) (length (ind ++ bs ":: " ++ cont_src d) + 1) (fun r => same_cont (l_val r) d).
Proof.
  intros H B F. unfold definition_line. apply (got_located s _ _ (fun c => same_cont c d)).
  rewrite (space0_run s ind _ H B) by (intros c z Ez; injection Ez as <- _; reflexivity). cbn [bind].
  pose proof (sees_mv _ _ _ H) as H1. change (bs ":: " ++ cont_src d ++ b_nl :: k) with (bs "::" ++ b_sp :: cont_src d ++ b_nl :: k) in H1.
  rewrite (tag_run (bs "::") _ _ H1). cbn [bind]. pose proof (sees_mv _ _ _ H1) as H2. change (length (bs "::")) with 2 in *.
  destruct (def_rest d _ k H2 F) as [D1 D2]. rewrite D1. cbn [bind].
  assert (EL : length (ind ++ bs ":: " ++ cont_src d) + 1 = length ind + (2 + (1 + (length (cont_src d) + (1 + 0))))).
  { rewrite !app_length. change (length (bs ":: ")) with 3. unfold str. lia. }
  rewrite EL. do 3 apply got_shift. pose proof (sees_mv (mv 2 (mv (length ind) s)) [b_sp] _ H2) as H3. change (length [b_sp]) with 1 in H3.
  eapply got_bind; [exact D2|]. intros x Hx. rewrite (eol_run_nl _ _ (sees_mv _ _ _ H3)). cbn [bind]. rewrite Nat.add_0_r. now apply got_ok.
Qed.

(** * Where definitions end *)

Lemma no_def_line s : ctx s -> (forall a r, blanks a -> remaining s <> a ++ bs "::" ++ r) -> fails (definition_line up dp s).
Proof.
  intros C N. pose proof (@G_definition_line (any_env up dp (sp_inner s)) (S (remaining_len s)) s (ctx_sok up dp s C) ltac:(lia)) as G.
  unfold R in G. cbn [e_uri e_date any_env] in G. destruct (definition_line up dp s) as [s' x| | |]; cbn; auto.
  destruct G as [(A1 & A2 & A3 & A4 & A5 & _) (_ & D & _ & _)]. destruct D as (a & b & c & e & E & Ba & _); [exact (proj2 C)|].
  cbn [e_inner any_env] in E. apply (N a (b ++ c ++ e ++ slice (sp_start s') (sp_end s) (sp_inner s)) Ba).
  unfold remaining. rewrite (slice_app (sp_start s) (sp_start s') (sp_end s)) by lia. rewrite E, <- !app_assoc. reflexivity.
Qed.
Lemma no_def_here s k : ctx s -> remaining s = k -> no_defs_here k -> fails (definition_line up dp s).
Proof.
  intros C E (ln & r & -> & Lr & A). apply (no_def_line s C). intros a q Ba Eq. rewrite E in Eq.
  rewrite app_assoc in Eq. symmetry in Eq. apply nl_free_prefix in Eq as [z Ez]; auto.
  - apply (A a z). now rewrite Ez, <- app_assoc.
  - apply no_nl_app. split; [|nonl]. exact (blanks_no_nl a Ba).
Qed.
Lemma no_term_here s k : ctx s -> ctxt s [] -> remaining s = k -> no_defs_here k -> fails (term_and_definitions up dp s).
Proof.
  intros C X Ek (ln & r & -> & Lr & A).
  pose proof (@GP_term_and_definitions (any_env up dp (sp_inner s)) (S (remaining_len s)) s (ctx_sok up dp s C) ltac:(lia) (ctxt_edge up dp s (proj1 C) X)) as G.
  unfold R in G. cbn [e_uri e_date any_env] in G. destruct (term_and_definitions up dp s) as [s' x| | |]; cbn; auto.
  destruct G as [(A1 & A2 & A3 & A4 & A5 & _) (L1 & T & _)]. specialize (T (proj2 C)). unfold term_defs_ok in T.
  set (tlo := r_off (l_reg (td_term (l_val (def_item x))))) in *. set (tl := r_len (l_reg (td_term (l_val (def_item x))))) in *.
  destruct T as (T1 & T2 & T3 & _ & _ & _ & _ & _ & T4 & _ & T5 & _ & T6 & _ & T7 & _). cbn [e_inner any_env] in *.
  assert (Er : remaining s = slice (sp_start s) (sp_start s') (sp_inner s) ++ slice (sp_start s') (sp_end s) (sp_inner s)) by (apply slice_app; lia).
  rewrite (slice_app (sp_start s) (tlo + tl) (sp_start s')) in Er by lia.
  rewrite (slice_app (sp_start s) (tlo + tl - 2) (tlo + tl)) in Er by lia.
  rewrite (slice_app (sp_start s) tlo (tlo + tl - 2)) in Er by lia. rewrite T4 in Er. rewrite Ek, <- app_assoc in Er.
  symmetry in Er. apply nl_free_prefix in Er as [z ->]; auto.
  - apply (A (slice (sp_start s) tlo (sp_inner s) ++ slice tlo (tlo + tl - 2) (sp_inner s)) z). rewrite <- !app_assoc. reflexivity.
  - rewrite !no_nl_app. split; [split; [exact (blanks_no_nl _ T2)|exact T5]|nonl].
Qed.

(** * Definition lists *)

Definition ind_lines (ind : str) (ls : list str) : str := nl_lines (map (app ind) ls).
Lemma ind_lines_cons ind l ls k : ind_lines ind (l :: ls) ++ k = (ind ++ l) ++ b_nl :: ind_lines ind ls ++ k.
Proof. unfold ind_lines. cbn [map nl_lines flat_map]. now rewrite <- !app_assoc. Qed.
Lemma ind_lines_len ind l ls : length (ind_lines ind (l :: ls)) = length (ind ++ l) + 1 + length (ind_lines ind ls).
Proof. unfold ind_lines. cbn [map nl_lines flat_map]. rewrite !app_length. unfold nl_lines. cbn [length]. unfold str. lia. Qed.
Lemma ind_lines_app ind a b : ind_lines ind (a ++ b) = ind_lines ind a ++ ind_lines ind b.
Proof. unfold ind_lines. now rewrite map_app, nl_lines_app. Qed.
Definition same_defs (xs ds : list (located container)) : Prop := Forall2 (fun x d => same_cont (l_val x) (l_val d)) xs ds.
Lemma more_defs_run ind ds : blanks ind -> forall s k, sees s (ind_lines ind (map def_line ds) ++ k) -> ctx s ->
  Forall (fun d => cont_fine (l_val d)) ds -> (forall s', ctx s' -> remaining s' = k -> fails (definition_line up dp s')) ->
  got s (many0 (definition_line up dp) s) (length (ind_lines ind (map def_line ds))) (fun l => same_defs l ds).
Proof.
  intro B. induction ds as [|d ds IH]; intros s k H C F N.
  - eapply got_weaken; [apply got_many0_nil|intros ? ->; constructor]. apply N; auto. apply H.
  - inversion F as [|? ? F1 Fs]; subst. cbn [map] in *. pose proof H as H'. rewrite ind_lines_cons in H. rewrite ind_lines_len.
    unfold SpecRound.def_line at 1 in H. unfold SpecRound.def_line at 1. set (ln := ind ++ bs ":: " ++ cont_src (l_val d)) in *.
    assert (H0 : sees s (ind ++ bs ":: " ++ cont_src (l_val d) ++ b_nl :: ind_lines ind (map def_line ds) ++ k)) by (unfold ln in H; rewrite <- !app_assoc in H; exact H).
    assert (H1 : sees s ((ln ++ [b_nl]) ++ ind_lines ind (map def_line ds) ++ k)) by (rewrite <- app_assoc; exact H).
    pose proof (sees_mv _ _ _ H1) as H2. pose proof (ctx_mv _ _ _ H1 C) as C2. rewrite app_length in H2, C2. change (length [b_nl]) with 1 in *.
    eapply got_weaken; [apply (got_many0_cons s _ _ (length ln + 1) (length (ind_lines ind (map def_line ds)))
        (fun x => same_cont (l_val x) (l_val d)) (fun l => same_defs l ds) H)|].
    + rewrite app_length. cbn [length]. lia.
    + lia.
    + exact (def_line_run (l_val d) s ind _ H0 B F1).
    + exact (IH _ k H2 C2 Fs N).
    + intros l (x & l' & -> & Hx & Hl). constructor; assumption.
Qed.
Definition same_td (x : located container * located (list (located container))) (t : term_defs) : Prop :=
  same_cont (l_val (fst x)) (l_val (td_term t)) /\ same_defs (l_val (snd x)) (l_val (td_defs t)).
Lemma td_run t ind s k : blanks ind -> sees s (ind_lines ind (td_lines t) ++ k) -> ctx s -> ctxt s [] -> td_fine t ->
  (forall s', ctx s' -> remaining s' = k -> fails (definition_line up dp s')) ->
  got s (term_and_definitions up dp s) (length (ind_lines ind (td_lines t))) (fun x => same_td x t).
Proof.
  intros B H C X (F1 & F2 & F3 & F4) N. unfold SpecRound.td_lines in *. unfold same_td. set (ds := l_val (td_defs t)) in *. destruct ds as [|d ds]; [congruence|].
  inversion F4 as [|? ? Fd Fs]; subst. cbn [map] in *. rewrite ind_lines_cons in H. rewrite ind_lines_len.
  unfold SpecRound.def_line at 1 in H. unfold SpecRound.def_line at 1. set (T := cont_src (l_val (td_term t))) in *. set (ln := ind ++ T ++ bs ":: " ++ cont_src (l_val d)) in *.
  set (K := ind_lines ind (map def_line ds)) in *.
  assert (H0 : sees s (ind ++ T ++ bs ":: " ++ cont_src (l_val d) ++ b_nl :: K ++ k)) by (unfold ln in H; rewrite <- !app_assoc in H; exact H).
  assert (H1 : sees s ((ln ++ [b_nl]) ++ K ++ k)) by (rewrite <- app_assoc; exact H).
  pose proof (sees_mv _ _ _ H1) as H2. pose proof (ctx_mv _ _ _ H1 C) as C2. rewrite app_length in H2, C2. change (length [b_nl]) with 1 in *.
  unfold term_and_definitions. eapply got_bind; [exact (term_line_run (l_val (td_term t)) (l_val d) s ind _ H0 B X F1 F2 Fd)|].
  intros [tm od] (Hr & y & Ey & Hy). cbn [fst snd] in *. subst od. rewrite <- (Nat.add_0_r (length K)).
  eapply (got_bind _ _ _ (fun b => same_defs (l_val b) ds)).
  - apply (got_located _ _ _ (fun l => same_defs l ds)). unfold verify. pose proof (more_defs_run ind ds B _ k H2 C2 Fs N) as G. fold K in G.
    destruct (many0 (definition_line up dp) (mv (length ln + 1) s)); cbn [bind got] in *; auto.
  - intros b Hb. apply got_ret. cbn [fst snd l_val]. split; [exact Hr|]. constructor; assumption.
Qed.
Lemma td_starts t ind more k : td_fine t -> exists q, ind_lines ind (td_lines t ++ more) ++ k = ind ++ cont_src (l_val (td_term t)) ++ bs "::" ++ q.
Proof.
  intros (F1 & F2 & F3 & F4). unfold SpecRound.td_lines. destruct (l_val (td_defs t)) as [|d ds]; [congruence|]. cbn [map app]. rewrite ind_lines_cons.
  unfold SpecRound.def_line at 1. eexists. rewrite <- !app_assoc. change (bs ":: ") with (bs "::" ++ [b_sp]). rewrite <- !app_assoc. reflexivity.
Qed.
Local Notation tds d := (flat_map (fun x => td_lines (l_val x)) d).
Lemma tds_first ind t d s k : blanks ind -> sees s (ind_lines ind (td_lines (l_val t)) ++ ind_lines ind (tds d) ++ k) -> ctx s -> lstart s ->
  Forall (fun x => td_fine (l_val x)) (t :: d) -> no_defs_here k ->
  got s (deeper (term_and_definitions up dp) s) (length (ind_lines ind (td_lines (l_val t)))) (fun x => same_td x (l_val t)).
Proof.
  intros B H C L F K. inversion F as [|? ? F1 Fs]; subst. apply got_deeper.
  refine (td_run (l_val t) ind (with_deeper s) (ind_lines ind (tds d) ++ k) B (sees_deeper _ _ H) C (ctxt_lstart s (proj1 C) L) F1 _).
  intros s' C' E'. destruct d as [|u d]; [exact (no_def_here s' k C' E' K)|]. inversion Fs as [|? ? Fu _]; subst.
  destruct (td_starts (l_val u) ind (tds d) k Fu) as [q Eq].
  apply (no_def_line s' C'). intros a r Ba Er. rewrite E' in Er. cbn [flat_map] in Er. rewrite Eq in Er.
  destruct Fu as (G1 & (G2 & _) & _). destruct (cont_head _ G1) as (x & z & Ex & N1 & _). rewrite Ex in *.
  assert (Er' : ind ++ x :: z ++ bs "::" ++ q = a ++ x3a :: x3a :: r) by exact Er.
  destruct (blanks_unique _ _ _ _ _ _ Er' B Ba N1 eq_refl) as (_ & -> & Ez).
  apply (not_colons (x3a :: z) (x3a :: q) G2 ltac:(discriminate) r). change (x3a :: (z ++ bs "::" ++ q) = x3a :: x3a :: r). f_equal. exact Ez.
Qed.
Lemma tds_run ind d : blanks ind -> forall s k, sees s (ind_lines ind (tds d) ++ k) -> ctx s -> lstart s ->
  Forall (fun x => td_fine (l_val x)) d -> no_defs_here k ->
  got s (many0 (deeper (term_and_definitions up dp)) s) (length (ind_lines ind (tds d))) (fun l => Forall2 (fun x t => same_td x (l_val t)) l d).
Proof.
  intro B. induction d as [|t d IH]; intros s k H C L F K.
  - eapply got_weaken; [apply got_many0_nil|intros ? ->; constructor]. apply fails_deeper.
    apply (no_term_here (with_deeper s) k); [exact C|exact (ctxt_lstart s (proj1 C) L)|exact (proj2 H)|exact K].
  - inversion F as [|? ? F1 Fs]; subst. cbn [flat_map] in *. rewrite ind_lines_app in *. rewrite <- app_assoc in H.
    pose proof (tds_first ind t d s k B H C L F K) as G.
    set (T1 := ind_lines ind (td_lines (l_val t))) in *. set (T2 := ind_lines ind (tds d)) in *.
    pose proof (sees_mv _ _ _ H) as H2. pose proof (ctx_mv _ _ _ H C) as C2.
    assert (Hp : 0 < length T1).
    { unfold T1. pose proof F1 as (G1 & _ & G2 & _). unfold SpecRound.td_lines. destruct (l_val (td_defs (l_val t))); [congruence|]. cbn [map]. rewrite ind_lines_len. lia. }
    rewrite app_length. eapply got_weaken; [apply (got_many0_cons s _ _ (length T1) (length T2)
        (fun x => same_td x (l_val t)) (fun l => Forall2 (fun x t => same_td x (l_val t)) l d) H)|].
    + rewrite app_length. lia.
    + exact Hp.
    + exact G.
    + exact (IH _ k H2 C2 (lstart_nl s (map (app ind) (td_lines (l_val t))) _ H L) Fs K).
    + intros l (x & l' & -> & Hx & Hl). constructor; assumption.
Qed.
Definition same_deflist (x d : def_list) : Prop := forall cu, n_block cu nowhere (n_cont cu nowhere) (BDefList x) = n_block cu nowhere (n_cont cu nowhere) (BDefList d).
Lemma same_items xs d : Forall2 (fun x t => same_td x (l_val t)) xs d -> same_deflist (map def_item xs) d.
Proof.
  intros H cu. cbn [n_block]. f_equal. induction H as [|x t xs d [H1 H2] _ IH]; [reflexivity|]. cbn [map]. f_equal; [|exact IH].
  unfold n_loc at 1 2. cbn [def_item l_val l_reg]. f_equal. unfold n_td. cbn [td_term td_defs]. f_equal.
  - unfold n_loc. f_equal. exact (H1 cu).
  - unfold n_loc at 1 3. f_equal. clear -H2. induction H2 as [|a b xs ys H _ IH]; [reflexivity|]. cbn [map]. f_equal; [|exact IH]. unfold n_loc. f_equal. exact (H cu).
Qed.
Lemma defs_run d ind s k : blanks ind -> sees s (ind_lines ind (tds d) ++ k) -> ctx s -> lstart s ->
  d <> [] -> Forall (fun x => td_fine (l_val x)) d -> no_defs_here k ->
  got s (p_definition_list up dp s) (length (ind_lines ind (tds d))) (fun x => same_deflist (l_val x) d).
Proof.
  intros B H C L Ne F K. unfold p_definition_list. apply (got_located s _ _ (fun x => same_deflist x d)).
  eapply (got_pmap s _ _ _ (fun l => Forall2 (fun x t => same_td x (l_val t)) l d)); [|intros l Hl; exact (same_items _ _ Hl)].
  destruct d as [|t d]; [congruence|]. inversion F as [|? ? F1 Fs]; subst. cbn [flat_map] in *. rewrite ind_lines_app in *. rewrite <- app_assoc in H.
  rewrite app_length. eapply got_weaken; [apply (got_many1 s _ _ _ (fun x => same_td x (l_val t)) (fun l => Forall2 (fun x t => same_td x (l_val t)) l d))|].
  - exact (tds_first ind t d s k B H C L F K).
  - apply (tds_run ind d B _ k (sees_mv _ _ _ H) (ctx_mv _ _ _ H C)); [exact (lstart_nl s (map (app ind) (td_lines (l_val t))) _ H L)|exact Fs|exact K].
  - intros l (x & l' & -> & Hx & Hl). constructor; assumption.
Qed.
End Defs.
