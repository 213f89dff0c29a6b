(** Reading the links of a known line. *)
From Verif Require Import Base ModelSpan ModelComb ModelAst ModelTable ModelLink ModelInline ModelBlock ModelElem
  SpecDoc SpecBlock SpecTree SpecSpan SpecEq SpecRound ProofBase ProofBytes ProofContract ProofPrim ProofInline ProofLink ProofText
  ProofBlock ProofFence ProofDefs ProofTable ProofList ProofPage ProofClaims2 ProofSpan ProofRound ProofRound2 ProofRound3 ProofRound4 ProofRound5.
From Verif Require ProofPath2 ProofElem2.
Local Open Scope nat_scope.

(** * Stopping at the first of several marks *)

Lemma tlu3_run p1 p2 p3 s a r : sees s (a ++ r) -> a <> [] -> p1 <> [] -> p2 <> [] -> p3 <> [] ->
  first_stop [p1; p2; p3] (a ++ r) (length a) ->
  take_line_until_one_of_three1 p1 p2 p3 s = Ok (mv (length a) s) (tk (length a) s).
Proof.
  intros H Na N1 N2 N3 F. unfold take_line_until_one_of_three1, verify, take_line_until_one_of_three. pose proof H as [Hs E]. rewrite E.
  rewrite (first_stop_unique _ _ _ _ (tlu3_first p1 p2 p3 (a ++ r) N1 N2 N3) F).
  rewrite (split_run _ _ (a ++ r)) by (auto; rewrite app_length; lia). cbn [bind].
  unfold non_empty, sp_is_empty. rewrite (sees_len _ _ (sees_tk _ _ _ H)). destruct a; [congruence|reflexivity].
Qed.
Lemma tlu2_run p1 p2 s a r : sees s (a ++ r) -> a <> [] -> p1 <> [] -> p2 <> [] ->
  first_stop [p1; p2] (a ++ r) (length a) ->
  take_line_until_one_of_two1 p1 p2 s = Ok (mv (length a) s) (tk (length a) s).
Proof.
  intros H Na N1 N2 F. unfold take_line_until_one_of_two1, verify, take_line_until_one_of_two. pose proof H as [Hs E]. rewrite E.
  rewrite (first_stop_unique _ _ _ _ (tlu2_first p1 p2 (a ++ r) N1 N2) F).
  rewrite (split_run _ _ (a ++ r)) by (auto; rewrite app_length; lia). cbn [bind].
  unfold non_empty, sp_is_empty. rewrite (sees_len _ _ (sees_tk _ _ _ H)). destruct a; [congruence|reflexivity].
Qed.

(** [a] is followed by the end or by a mark that stops. *)
Lemma first_stop_marks pats a r : no_nl a ->
  (r = [] \/ exists c r', r = c :: r' /\ c <> b_nl /\ In [c] pats) ->
  (forall p, In p pats -> exists c, (p = [c] /\ ~ In c a) \/ (p = [c; c] /\ absent p a /\ (forall r', r <> c :: r'))) ->
  first_stop pats (a ++ r) (length a).
Proof.
  intros Na Hr Hp. split; [rewrite app_length; lia|]. split.
  - intros k Hk. assert (N : forall b, nth_error (a ++ r) k = Some b -> In b a).
    { intros b Hb. rewrite nth_error_app1 in Hb by auto. eapply nth_error_In; eauto. }
    split.
    + intros [H|H].
      * apply found_nth in H. apply N in H. now apply Na.
      * apply found2_nth in H as [_ Hb]. destruct (Nat.lt_ge_cases (S k) (length a)) as [L|L].
        { rewrite nth_error_app1 in Hb by auto. apply nth_error_In in Hb. now apply Na. }
        assert (S k = length a) as E by lia. rewrite E, nth_error_app2, Nat.sub_diag in Hb by lia.
        destruct Hr as [->|(c & r' & -> & Hc & _)]; [discriminate|]. cbn in Hb. congruence.
    + intros p Hi H. destruct (Hp p Hi) as [c [[-> Hc]|(-> & Hc & Hd)]].
      * apply found_nth in H. apply N in H. contradiction.
      * pose proof H as H'. apply found2_nth in H' as [Ha Hb]. destruct (Nat.lt_ge_cases (S k) (length a)) as [L|L].
        { rewrite nth_error_app1 in Ha, Hb by auto. apply nth_error_split in Ha as (x & y & -> & <-).
          rewrite nth_error_app2 in Hb by lia. replace (S (length x) - length x) with 1 in Hb by lia. cbn in Hb.
          destruct y as [|z y]; [discriminate|]. cbn in Hb. injection Hb as ->. apply (Hc x y). reflexivity. }
        assert (S k = length a) as E by lia. rewrite E, nth_error_app2, Nat.sub_diag in Hb by lia.
        destruct r as [|z r]; [discriminate|]. cbn in Hb. injection Hb as ->. now apply (Hd r).
  - destruct Hr as [->|(c & r' & -> & Hc & Hi)]; [left; now rewrite app_nil_r|]. right. right. exists [c]. split; auto. exists a, r'. auto.
Qed.

Lemma web_letter c l : web_head (c :: l) -> In (lower c) [x68; x66; x6c; x6d].
Proof.
  intros (w & r & E & L). destruct w as [|x w].
  - cbn in L. intuition discriminate.
  - cbn [app] in E. injection E as <- _. cbn in L. cbn [In].
    repeat (destruct L as [L|L]; [injection L as L _; auto 6|]). destruct L.
Qed.

Section Links.
Variable up : str -> option uri.
Variable dp : str -> option date.
Variable lossy : str -> str.
(** The scheme of a URI is the text before its first colon. *)
Hypothesis Hsch : forall t u s, up t = Some u -> u_scheme u = Some s -> In s web_schemes ->
  exists w r, t = w ++ bs ":" ++ r /\ map lower w = s.
Local Notation target_src := (target_src lossy).
Local Notation link_src := (link_src lossy).
Local Notation inside_src := (inside_src lossy).
Local Notation data_fine := (data_fine up lossy).
Local Notation link_fine := (link_fine up dp lossy).

(** * Raw links *)

Lemma raw_spec s : span_ok s ->
  fails (raw_link up s) \/
  exists u, raw_link up s = Ok (mv (word_len (remaining s)) s) (Loc (LRaw (LinkData u None None)) (Region (sp_start s) (word_len (remaining s)) (sp_depth s))) /\
    is_raw_scheme u = true /\ up (firstn (word_len (remaining s)) (remaining s)) = Some u.
Proof.
  intros Hs. pose proof (@G_raw_link (any_env up dp (sp_inner s)) (S (remaining_len s)) s) as G.
  assert (K : @sok (any_env up dp (sp_inner s)) s) by (destruct Hs; repeat split; auto).
  specialize (G K ltac:(lia)). unfold ProofContract.R in G. cbn [e_uri any_env] in G.
  destruct (raw_link up s) as [s' x| | |]; try (left; exact I); [|contradiction]. right.
  destruct G as [(A1 & A2 & A3 & A4 & A5 & _) (B1 & B2 & B3 & _ & u & B4 & B5 & B6 & _)].
  exists u. split; [|split; auto].
  - destruct x as [v rg]. cbn [l_val l_reg] in *. subst v rg.
    assert (E : s' = mv (word_len (remaining s)) s).
    { destruct s'. unfold mv. cbn in *. congruence. }
    rewrite E. f_equal. f_equal. unfold reg. cbn. f_equal; lia.
  - cbn [e_uri any_env] in B6. rewrite <- B6. f_equal. unfold txt. rewrite B3. unfold remaining.
    rewrite firstn_slice; [reflexivity|]. unfold remaining in B3. lia.
Qed.

Lemma raw_schemes_web : raw_schemes = web_schemes. Proof. reflexivity. Qed.
Lemma is_raw_web u : is_raw_scheme u = true -> exists s, u_scheme u = Some s /\ In s web_schemes.
Proof. intro H. apply is_raw_scheme_spec in H as (s & H1 & H2). exists s. split; auto. Qed.
Lemma raw_no s : span_ok s -> ~ web_head (remaining s) -> fails (raw_link up s).
Proof.
  intros Hs N. destruct (raw_spec s Hs) as [H|(u & _ & H1 & H2)]; auto. exfalso. apply N.
  apply is_raw_web in H1 as (sc & E1 & E2). destruct (Hsch _ _ _ H2 E1 E2) as (w & r & E & L).
  exists w, (r ++ skipn (word_len (remaining s)) (remaining s)). split; [|now rewrite L].
  rewrite <- (firstn_skipn (word_len (remaining s)) (remaining s)) at 1. rewrite E, <- !app_assoc. reflexivity.
Qed.
Lemma word_len_run w r : Forall (fun b => is_ascii_ws b = false) w ->
  (r = [] \/ exists c r', r = c :: r' /\ (is_space c = true \/ c = b_nl)) -> word_len (w ++ r) = length w.
Proof.
  intros F Hr. induction F as [|b w Hb F IH].
  - cbn [app length]. destruct Hr as [->|(c & r' & -> & [H| ->])]; [reflexivity| |reflexivity]. cbn. now rewrite H.
  - cbn [app word_len length]. assert (is_space b = false) as -> by (destruct b; try reflexivity; discriminate).
    assert (is_nl b = false) as -> by (destruct b; try reflexivity; discriminate).
    assert (beqb b b_cr = false) as -> by (destruct b; try reflexivity; discriminate). cbn. now rewrite IH.
Qed.
Lemma web_scheme_head u s w : up w = Some u -> u_scheme u = Some s -> In s web_schemes ->
  exists c t, w = c :: t /\ In (lower c) [x68; x66; x6c; x6d].
Proof.
  intros E1 E2 E3. destruct (Hsch _ _ _ E1 E2 E3) as (x & r & -> & L). destruct x as [|c x].
  - cbn in L. subst s. cbn in E3. intuition discriminate.
  - exists c, (x ++ bs ":" ++ r). split; [reflexivity|]. cbn in L. subst s.
    cbn in E3. cbn [In]. repeat (destruct E3 as [E3|E3]; [injection E3 as E3 _; auto 6|]). destruct E3.
Qed.
Lemma nonspace_run s : span_ok s -> 0 < word_len (remaining s) ->
  recognize (many1 (pair (pnot single_multispace) anychar)) s =
  Ok (mv (word_len (remaining s)) s) (tk (word_len (remaining s)) s).
Proof.
  intros [H1 H2] W. fold nonspace. unfold recognize, many1.
  pose proof (nonspace_step s H1 H2) as H. destruct s as [inner st e d]. cbn [sp_start sp_end sp_inner sp_depth] in *.
  unfold remaining in *. cbn [sp_start sp_end sp_inner] in *. destruct (slice st e inner) as [|b r] eqn:E; [cbn in W; lia|].
  cbn [word_len at_multispace] in *. destruct (is_space b || is_nl b || (beqb b b_cr && starts_with nl_str r)); [lia|].
  rewrite H. cbn [bind]. apply slice_cons in E as (E1 & E2 & E3).
  unfold advance_start_by. cbn [sp_inner sp_start sp_end sp_depth].
  replace (e <? st + 1) with false by (symmetry; apply Nat.ltb_ge; lia). unfold many0.
  destruct (many0_nonspace (S (remaining_len (Span inner (st + 1) e d))) inner (st + 1) e d) as [l [Hl _]]; try lia.
  { unfold remaining_len. cbn [sp_start sp_end]. destruct (Nat.leb_spec (st + 1) e); lia. }
  rewrite Hl. cbn [bind sp_start]. replace (slice (st + 1) e inner) with r by (rewrite E3; f_equal; lia).
  assert (st + 1 + word_len r <? st = false) as -> by (apply Nat.ltb_ge; lia). unfold mv, tk, advance_end_by. cbn. f_equal; f_equal; lia.
Qed.
Lemma raw_run s d next tail : sees s (link_src (LRaw d) ++ next ++ tail) -> raw_fine up d next -> line_end tail ->
  got s (raw_link up s) (length (link_src (LRaw d))) (fun x => l_val x = LRaw d /\ r_off (l_reg x) = sp_start s).
Proof.
  intros H (F1 & F2 & F3 & F4 & F5 & F6) Ht. cbn [SpecRound.link_src SpecRound.inside_src] in *. destruct F1 as (sc & S1 & S2).
  assert (W : word_len (remaining s) = length (uri_display (ld_uri d))).
  { destruct H as [_ ->]. apply word_len_run; auto. destruct F4 as [->|(c & r & -> & Hc)].
    - destruct Ht as [->|[r ->]]; [now left|]. right. exists b_nl, r. auto.
    - right. exists c, (r ++ tail). auto. }
  assert (Wp : 0 < length (uri_display (ld_uri d))).
  { destruct (web_scheme_head _ _ _ F2 S1 S2) as (c & t & -> & _). cbn. lia. }
  unfold raw_link. apply (got_located_at s _ _ (fun x => x = LRaw d)). unfold verify, uri_ref, map_opt.
  rewrite (nonspace_run s) by (rewrite ?W; auto; apply H). rewrite W. cbn [bind]. rewrite (remaining_tk s _ _ H), F2. cbn [bind].
  assert (is_raw_scheme (ld_uri d) = true) as ->.
  { unfold is_raw_scheme. rewrite S1. apply existsb_exists. exists sc. split; auto. apply str_eqb_refl. }
  cbn [bind]. apply got_ok. destruct d as [u dd p]. cbn in *. now subst.
Qed.

(** * The parts of a link *)

(** What follows a target: the end, or a bar. *)
Lemma desc_stop d : desc_src d = [] \/ exists c r', desc_src d = c :: r' /\ c <> b_nl /\ In [c] [bs "|"; bs "]]"; bs "}}"].
Proof.
  destruct d as [[t|x]|]; cbn; auto. right. exists x7c, t. split; [reflexivity|]. split; [discriminate|now left].
Qed.
Lemma bar_stop d c : desc_src d = [] \/ (exists r', desc_src d = x7c :: r') -> c <> x7c -> forall r', desc_src d <> c :: r'.
Proof. intros [->|[r ->]] N r' E; [discriminate|]. injection E as E _. congruence. Qed.
Lemma desc_bar d : desc_src d = [] \/ exists r', desc_src d = x7c :: r'.
Proof. destruct d as [[t|x]|]; cbn; eauto. Qed.
Lemma target_run o d : sees o (target_src d ++ desc_src (ld_desc d)) -> target_fine up lossy d ->
  got o (link_uri_ref up o) (length (target_src d)) (fun u => u = ld_uri d).
Proof.
  intros H (F1 & F2 & F3 & F4 & F5 & F6). unfold link_uri_ref.
  rewrite (tlu3_run (bs "|") (bs "]]") (bs "}}") o _ _ H F1); try discriminate.
  2: { apply first_stop_marks; auto using desc_stop. intros p [<-|[<-|[<-|[]]]].
    - exists x7c. now left.
    - exists x5d. right. split; [reflexivity|]. split; auto. apply bar_stop; [apply desc_bar|discriminate].
    - exists x7d. right. split; [reflexivity|]. split; auto. apply bar_stop; [apply desc_bar|discriminate]. }
  cbn [bind]. rewrite (remaining_tk o _ _ H). destruct F6 as [->|[-> ->]]; now apply got_ok.
Qed.
Lemma desc_run (tr : parser (located link)) o d : sees o (desc_src d) -> desc_fine d ->
  (forall s, span_ok s -> (forall r, remaining s <> bs "{{" ++ r) -> fails (tr s)) ->
  got o (opt (link_description_ tr) o) (length (desc_src d)) (fun x => x = d).
Proof.
  intros H F Ht. destruct d as [[t|x]|]; cbn [desc_fine] in F; [|destruct F|].
  - destruct F as (F1 & F2 & F3). cbn [desc_src] in *.
    apply got_weaken with (P := fun x => exists y, x = Some y /\ y = DescText t); [|now intros x (y & -> & ->)].
    apply (got_opt_some o (link_description_ tr) _ (fun y => y = DescText t)).
    unfold link_description_. rewrite (tag_run (bs "|") o t H). cbn [bind]. pose proof (sees_mv _ _ _ H) as H1.
    assert (H2 : sees (mv (length (bs "|")) o) (t ++ [])) by now rewrite app_nil_r.
    rewrite app_length. apply (got_n _ _ (length (bs "|") + length t)); [|reflexivity].
    change (got o (bind (Ok (mv (length (bs "|")) o) tt) (fun s1 _ => map_parser (take_line_until (bs "|"))
       (palt (pmap tr (fun l => DescTransclusion (link_get_data (l_val l)))) (pmap rest (fun sp => DescText (remaining sp)))) s1))
       (length (bs "|") + length t) (fun y => y = DescText t)).
    apply (got_bind o _ _ (fun _ => True)); [now apply got_ok|]. intros _ _.
    eapply (got_map_parser _ _ _ _ (length t)).
    { apply (tlu_run (bs "|") _ t [] H2); [discriminate|cbn; lia|]. rewrite app_nil_r.
      rewrite <- (app_nil_r t) at 1. apply first_stop_marks; auto. intros p [<-|[]]. exists x7c. now left. }
    pose proof (sees_tk _ _ _ H2) as H3. apply got_palt_r.
    + apply fails_pmap, Ht; [apply H3|]. intro r. rewrite (proj2 H3). apply F3.
    + unfold pmap, rest. cbn [bind]. rewrite (proj2 H3), (sees_len _ _ H3).
      destruct (advance_moved (length t) _ (sees_ok _ _ H3)) as [_ ->]; [rewrite (proj2 H3); lia|]. now apply got_ok.
  - cbn [desc_src length] in *. apply got_opt_none. unfold link_description_. rewrite tag_none; [exact I|].
    intro r. rewrite (proj2 H). discriminate.
Qed.
Lemma data_run (tr : parser (located link)) o d : sees o (target_src d ++ desc_src (ld_desc d)) -> data_fine d ->
  (forall s, span_ok s -> (forall r, remaining s <> bs "{{" ++ r) -> fails (tr s)) ->
  got o (link_data_ up tr o) (length (target_src d ++ desc_src (ld_desc d))) (fun x => x = d).
Proof.
  intros H (F1 & F2 & F3) Ht. unfold link_data_. rewrite app_length.
  eapply got_bind; [now apply target_run|]. cbv beta. intros u ->. apply sees_mv in H.
  rewrite <- (Nat.add_0_r (length (desc_src _))).
  eapply got_bind; [now apply desc_run|]. cbv beta. intros x ->.
  assert (H' : sees (mv (length (desc_src (ld_desc d))) (mv (length (target_src d)) o)) []).
  { apply (sees_mv _ (desc_src (ld_desc d)) []). now rewrite app_nil_r. }
  eapply (got_bind _ _ 0 (fun x => x = None) _ 0); [apply got_opt_none|].
  - unfold link_properties. rewrite tag_none; [exact I|]. intro r. rewrite (proj2 H'). discriminate.
  - intros x ->. apply got_ret. destruct d as [u' dd pp]. cbn in *. now subst.
Qed.
Lemma trans_no s : span_ok s -> (forall r, remaining s <> bs "{{" ++ r) -> fails (p_transclusion up s).
Proof.
  intros Hs N. unfold p_transclusion. cbn [transclusion_link]. apply fails_located, fails_map_parser. now apply surround_no.
Qed.
Lemma trans_no_f f s : 0 < f -> (forall r, remaining s <> bs "{{" ++ r) -> fails (transclusion_link up f s).
Proof.
  intros Hf N. destruct f; [lia|]. cbn [transclusion_link]. apply fails_located, fails_map_parser. now apply surround_no.
Qed.

(** * Links in brackets *)

Lemma bracket_run {A} (inner : parser A) s body r m P : sees s ((bs "[[" ++ body ++ bs "]]") ++ r) ->
  delimited_fine (bs "]]") body -> got (within (bs "[[") body s) (inner (within (bs "[[") body s)) m P ->
  got s (bracket_link inner s) (length (bs "[[" ++ body ++ bs "]]")) (fun x => P (l_val x) /\ r_off (l_reg x) = sp_start s).
Proof.
  intros H D K. rewrite <- !app_assoc in H. unfold bracket_link. apply (got_located_at s _ _ P).
  eapply got_map_parser; [|exact K]. apply (surround_run (bs "[[") (bs "]]") body r s H D); [discriminate|nonl|cbn; lia].
Qed.
Lemma bracket_inner_no {A} (inner : parser A) s body r : sees s ((bs "[[" ++ body ++ bs "]]") ++ r) ->
  delimited_fine (bs "]]") body -> fails (inner (within (bs "[[") body s)) -> fails (bracket_link inner s).
Proof.
  intros H D K. rewrite <- !app_assoc in H. unfold bracket_link. apply fails_located. unfold map_parser.
  rewrite (surround_run (bs "[[") (bs "]]") body r s H D); [|discriminate|nonl|cbn; lia]. cbn [bind]. now apply fails_bind.
Qed.
Lemma bracket_no {A} (inner : parser A) s : (forall r, remaining s <> bs "[[" ++ r) -> fails (bracket_link inner s).
Proof. intro N. apply fails_located, fails_map_parser. now apply surround_no. Qed.

Lemma tag_not (w t : str) o : sees o t -> (forall r, t <> w ++ r) -> tag w o = Err.
Proof. intros H N. apply tag_none. intro r. rewrite (proj2 H). apply N. Qed.
Lemma diary_no_inside o : (forall r, remaining o <> bs "diary:" ++ r) -> tag (bs "diary:") o = Err.
Proof. apply tag_none. Qed.
Lemma index_no o : (forall r, remaining o <> bs "wiki" ++ r) -> fails (indexed_link_index o).
Proof.
  intro N. unfold indexed_link_index, map_opt, delimited, preceded. rewrite tag_none by auto. exact I.
Qed.
Lemma name_no o : (forall r, remaining o <> bs "wn." ++ r) -> fails (named_link_name o).
Proof.
  intro N. unfold named_link_name, map_parser, delimited, preceded. rewrite tag_none by auto. exact I.
Qed.

Lemma dec_facts i : Forall (fun b => is_digit b = true) (dec i) /\ dec i <> [].
Proof. split; [apply ProofElem2.uint_str_digits|apply ProofElem2.dec_nonempty]. Qed.
Lemma digits_free l c : Forall (fun b => is_digit b = true) l -> is_digit c = false -> ~ In c l.
Proof. intros F N K. rewrite Forall_forall in F. apply F in K. congruence. Qed.

Lemma fold_digits d : forall acc, fold_left (fun a b => (a * 10 + N.of_nat (byte_n b - 48))%N) (uint_str d) acc = ProofElem2.dval acc d.
Proof.
  induction d; intro acc; cbn [uint_str fold_left ProofElem2.dval]; [reflexivity|..];
    match goal with |- context [N.of_nat (byte_n ?b - 48)] =>
      let v := eval vm_compute in (N.of_nat (byte_n b - 48)) in
      change (N.of_nat (byte_n b - 48)) with v end; rewrite IHd; f_equal; lia.
Qed.
Lemma parse_u32_dec i : (i <= 4294967295)%N -> parse_u32 (dec i) = Some i.
Proof.
  intro H. destruct (dec_facts i) as [D Ne]. unfold parse_u32.
  assert (E : match dec i with b :: l' => if beqb b x2b then l' else dec i | [] => dec i end = dec i).
  { destruct (dec i) as [|b l]; [congruence|]. inversion D; subst. destruct (beqb b x2b) eqn:B; auto.
    apply beqb_eq in B. subst b. discriminate. }
  rewrite E. unfold ModelInline.parse_digits. destruct (dec i) as [|b l] eqn:El; [congruence|]. rewrite <- El in *.
  assert (forallb is_digit (dec i) = true) as -> by (apply forallb_forall; now rewrite Forall_forall in D).
  unfold dec. rewrite fold_digits, ProofElem2.dval_of_uint, DecimalN.Unsigned.of_to.
  apply N.leb_le in H. now rewrite H.
Qed.

(** A literal, text up to a colon, and the colon. *)
Lemma upto_colon_run w n o r : sees o (w ++ n ++ bs ":" ++ r) -> n <> [] -> no_nl n -> ~ In x3a n ->
  delimited (tag w) (take_line_until1 (bs ":")) (tag (bs ":")) o =
  Ok (mv (length w + length n + 1) o) (within w n o) /\
  sees (mv (length w + length n + 1) o) r /\ sees (within w n o) n.
Proof.
  intros H N1 N2 N3. unfold delimited, preceded, terminated. rewrite (tag_run w o _ H). cbn [bind].
  pose proof (within_sees _ _ _ _ H) as W. pose proof (sees_mv _ _ _ H) as H1.
  rewrite (tlu1_run (bs ":") _ n _ H1 N1); [|discriminate|cbn; lia|].
  2: { apply (first_stop_byte x3a); auto. discriminate. }
  cbn [bind]. pose proof (sees_mv _ _ _ H1) as H2. rewrite (tag_run (bs ":") _ r H2). cbn [bind].
  pose proof (sees_mv _ _ _ H2) as H3. rewrite !mv_mv in *. change (length (bs ":")) with 1 in *. rewrite ?Nat.add_assoc in *. auto.
Qed.
Lemma index_run o i r : sees o (bs "wiki" ++ dec i ++ bs ":" ++ r) -> (i <= 4294967295)%N ->
  indexed_link_index o = Ok (mv (length (bs "wiki") + length (dec i) + 1) o) i /\
  sees (mv (length (bs "wiki") + length (dec i) + 1) o) r.
Proof.
  intros H Hi. destruct (dec_facts i) as [D Ne].
  destruct (upto_colon_run (bs "wiki") (dec i) o r H Ne) as (E & S1 & S2).
  - now apply digits_free.
  - now apply digits_free.
  - unfold indexed_link_index, map_opt. rewrite E. cbn [bind]. rewrite (proj2 S2), parse_u32_dec by auto. auto.
Qed.
Lemma name_run o n r : sees o (bs "wn." ++ n ++ bs ":" ++ r) -> n <> [] -> no_nl n -> ~ In x3a n ->
  named_link_name o = Ok (mv (length (bs "wn.") + length n + 1) o) n /\
  sees (mv (length (bs "wn.") + length n + 1) o) r.
Proof.
  intros H N1 N2 N3. destruct (upto_colon_run (bs "wn.") n o r H N1 N2 N3) as (E & S1 & S2). split; auto.
  unfold named_link_name, map_parser. rewrite E. cbn [bind]. unfold cow_str. rewrite (proj2 S2). reflexivity.
Qed.
(** The target and the description of a link to another wiki. *)
Lemma plain_data_run {B} o d (f : uri -> option description -> B) :
  sees o (target_src d ++ desc_src (ld_desc d)) -> data_fine d ->
  got o (do (s2, u) <- link_uri_ref up o;; do (s3, x) <- opt (link_description up) s2;; Ok s3 (f u x))
    (length (target_src d ++ desc_src (ld_desc d))) (fun x => x = f (ld_uri d) (ld_desc d)).
Proof.
  intros H (F1 & F2 & F3). rewrite app_length. eapply got_bind; [now apply target_run|]. cbv beta. intros u ->. apply sees_mv in H.
  rewrite <- (Nat.add_0_r (length (desc_src _))). eapply got_bind; [apply desc_run; auto using trans_no|]. cbv beta. intros x ->.
  now apply got_ret.
Qed.
Lemma indexed_run s i d r : sees s (link_src (LIndexed i d) ++ r) -> link_fine (LIndexed i d) r ->
  got s (indexed_interwiki_link up s) (length (link_src (LIndexed i d)))
    (fun x => l_val x = LIndexed i d /\ r_off (l_reg x) = sp_start s).
Proof.
  intros H (F1 & F2 & F3). cbn [SpecRound.link_src] in *.
  eapply (bracket_run _ s _ r _ (fun x => x = LIndexed i d)); auto.
  assert (W : sees (within (bs "[[") (inside_src (LIndexed i d)) s) (inside_src (LIndexed i d))).
  { rewrite <- !app_assoc in H. now apply within_sees in H. }
  set (o := within _ _ s) in *. cbn [SpecRound.inside_src] in W. destruct (index_run o i _ W F3) as [E S1]. rewrite E. cbn [bind].
  eapply got_n; [|reflexivity].
  match goal with |- got o ?x _ _ => change x with (bind (Ok (mv (length (bs "wiki") + length (dec i) + 1) o) i)
    (fun s1 i => do (s2, u) <- link_uri_ref up s1;; do (s3, d) <- opt (link_description up) s2;; Ok s3 (LIndexed i (LinkData u d None)))) end.
  eapply (got_bind o _ _ (fun y => y = i)); [now apply got_ok|]. intros y ->.
  eapply got_weaken; [apply (plain_data_run _ d (fun u d => LIndexed i (LinkData u d None)) S1 F1)|].
  cbv beta. intros x ->. destruct F1 as (_ & _ & F1). destruct d as [u dd pp]. cbn in *. now subst.
Qed.
Lemma named_run s n d r : sees s (link_src (LNamed n d) ++ r) -> link_fine (LNamed n d) r ->
  got s (named_interwiki_link up s) (length (link_src (LNamed n d)))
    (fun x => l_val x = LNamed n d /\ r_off (l_reg x) = sp_start s).
Proof.
  intros H (F1 & F2 & N1 & N2 & N3). cbn [SpecRound.link_src] in *.
  eapply (bracket_run _ s _ r _ (fun x => x = LNamed n d)); auto.
  assert (W : sees (within (bs "[[") (inside_src (LNamed n d)) s) (inside_src (LNamed n d))).
  { rewrite <- !app_assoc in H. now apply within_sees in H. }
  set (o := within _ _ s) in *. cbn [SpecRound.inside_src] in W. destruct (name_run o n _ W N1 N2 N3) as [E S1]. rewrite E. cbn [bind].
  match goal with |- got o ?x _ _ => change x with (bind (Ok (mv (length (bs "wn.") + length n + 1) o) n)
    (fun s1 i => do (s2, u) <- link_uri_ref up s1;; do (s3, d) <- opt (link_description up) s2;; Ok s3 (LNamed i (LinkData u d None)))) end.
  eapply (got_bind o _ _ (fun y => y = n)); [now apply got_ok|]. intros y ->.
  eapply got_weaken; [apply (plain_data_run _ d (fun u d => LNamed n (LinkData u d None)) S1 F1)|].
  cbv beta. intros x ->. destruct F1 as (_ & _ & F1). destruct d as [u dd pp]. cbn in *. now subst.
Qed.
Lemma wiki_run s d r : sees s (link_src (LWiki d) ++ r) -> link_fine (LWiki d) r ->
  got s (wiki_link up s) (length (link_src (LWiki d))) (fun x => l_val x = LWiki d /\ r_off (l_reg x) = sp_start s).
Proof.
  intros H (F1 & F2 & _). cbn [SpecRound.link_src] in *. eapply (bracket_run _ s _ r _ (fun x => x = LWiki d)); auto.
  assert (W : sees (within (bs "[[") (inside_src (LWiki d)) s) (inside_src (LWiki d))).
  { rewrite <- !app_assoc in H. now apply within_sees in H. }
  set (o := within _ _ s) in *. cbn [SpecRound.inside_src] in W.
  eapply got_bind; [exact (data_run _ o d W F1 trans_no)|]. cbv beta. intros x ->. now apply got_ret.
Qed.
Lemma trans_run s d r : sees s (link_src (LTransclusion d) ++ r) -> link_fine (LTransclusion d) r ->
  got s (p_transclusion up s) (length (link_src (LTransclusion d)))
    (fun x => l_val x = LTransclusion d /\ r_off (l_reg x) = sp_start s).
Proof.
  intros H (F1 & F2). cbn [SpecRound.link_src] in *. unfold p_transclusion. cbn [transclusion_link].
  apply (got_located_at s _ _ (fun x => x = LTransclusion d)).
  assert (L : 0 < remaining_len s) by (rewrite (sees_len _ _ H); cbn; lia).
  rewrite <- !app_assoc in H. pose proof (within_sees _ _ _ _ H) as W.
  eapply got_map_parser; [apply (surround_run (bs "{{") (bs "}}") _ r s H F2); [discriminate|nonl|cbn; lia]|].
  set (o := within _ _ s) in *. cbn [SpecRound.inside_src] in W.
  eapply got_bind; [exact (data_run _ o d W F1 (fun s' _ N => trans_no_f _ s' L N))|].
  cbv beta. intros x ->. now apply got_ret.
Qed.

Lemma split_str_some pat l : split_str pat l <> [].
Proof.
  unfold split_str. generalize 0. induction l as [|b l IH]; intro k; cbn; [discriminate|].
  destruct k as [|k]; [|apply IH]. destruct (starts_with pat (b :: l)); [discriminate|].
  destruct (split_str_go pat 0 l); discriminate.
Qed.
Lemma date_facts t : date_display t <> [] /\ no_nl (date_display t) /\ ~ In x7c (date_display t) /\ ~ In x23 (date_display t).
Proof.
  destruct (ProofPath2.date_display_bytes t) as [N F]. rewrite Forall_forall in F. split; auto.
  repeat split; intro K; apply F in K; destruct K as [L|[L|L]]; try discriminate; cbv in L; lia.
Qed.
Lemma anchor_read a : a <> [] -> Forall (fun x => ~ In x23 x) a -> anchor_from_fragment (bs "#" ++ join (bs "#") a) = Some a.
Proof.
  intros Na F. unfold anchor_from_fragment.
  assert (E : split_on x23 (bs "#" ++ join (bs "#") a) = [] :: a).
  { change (bs "#" ++ join (bs "#") a) with ([] ++ [x23] ++ join [x23] a).
    assert (E' : [] ++ [x23] ++ join [x23] a = join [x23] ([] :: a)) by (destruct a; [congruence|reflexivity]).
    rewrite E'. apply ProofElem2.split_on_join; [discriminate|]. constructor; [intros []|auto]. }
  now rewrite E.
Qed.
Lemma join_free c sep a : ~ In c sep -> Forall (fun x => ~ In c x) a -> ~ In c (join sep a).
Proof.
  intros N F. induction F as [|x a Hx F IH]; [intros []|]. destruct a as [|y a]; [exact Hx|].
  change (join sep (x :: y :: a)) with (x ++ sep ++ join sep (y :: a)). rewrite !in_app_iff. tauto.
Qed.
Lemma diary_run s t d r : sees s (link_src (LDiary t d) ++ r) -> link_fine (LDiary t d) r ->
  got s (diary_link up dp s) (length (link_src (LDiary t d)))
    (fun x => l_val x = LDiary t d /\ r_off (l_reg x) = sp_start s).
Proof.
  intros H (F1 & F2 & F3 & F4 & F5). cbn [SpecRound.link_src] in *.
  eapply (bracket_run _ s _ r _ (fun x => x = LDiary t d)); auto.
  assert (W : sees (within (bs "[[") (inside_src (LDiary t d)) s) (inside_src (LDiary t d))).
  { rewrite <- !app_assoc in H. now apply within_sees in H. }
  set (o := within _ _ s) in *. cbn [SpecRound.inside_src] in W. destruct (date_facts t) as (D1 & D2 & D3 & D4).
  eapply got_bind; [apply got_eq; exact (tag_run _ o _ W)|]. cbv beta. intros _ _. pose proof (sees_mv _ _ _ W) as H1.
  assert (A : exists a, anchor_from_fragment (anchor_src d) = Some a /\ ~ In x7c (anchor_src d) /\ no_nl (anchor_src d) /\
    up (anchor_to_fragment a) = Some (ld_uri d) /\ (anchor_src d = [] \/ exists q, anchor_src d = x23 :: q)).
  { unfold anchor_src in *. destruct (to_anchor d) as [a|] eqn:E.
    - destruct F5 as [F5 F6]. exists a. assert (Na : a <> []).
      { unfold to_anchor in E. destruct (u_fragment (ld_uri d)); [|discriminate]. injection E as <-. apply split_str_some. }
      split; [apply anchor_read; auto; eapply Forall_impl; [|exact F5]; cbn; tauto|].
      split; [|split; [|split]].
      + intros [K|K]; [discriminate|]. revert K. apply join_free; [nonl|]. eapply Forall_impl; [|exact F5]. cbn. tauto.
      + intros [K|K]; [discriminate|]. revert K. apply join_free; [nonl|]. eapply Forall_impl; [|exact F5]. cbn. unfold no_nl. tauto.
      + unfold anchor_to_fragment. destruct a; [congruence|exact F6].
      + right. eexists. reflexivity.
    - exists []. repeat split; auto; intros []. }
  destruct A as (a & A1 & A2 & A3 & A4 & A5).
  eapply (got_bind _ _ (length (date_display t)) (fun x => x = t)).
  { unfold map_opt. rewrite (tlu2_run (bs "|") (bs "#") _ _ _ H1 D1); try discriminate.
    - cbn [bind]. rewrite (remaining_tk _ _ _ H1). unfold date_fine in F1. rewrite F1. now apply got_ok.
    - apply first_stop_marks; auto.
      + destruct A5 as [->|[q ->]].
        * cbn [app]. destruct (desc_bar (ld_desc d)) as [->|[q ->]]; [now left|]. right. exists x7c, q. repeat split; [discriminate|now left].
        * right. exists x23, (q ++ desc_src (ld_desc d)). repeat split; [discriminate|right; now left].
      + intros p [<-|[<-|[]]]; [exists x7c|exists x23]; now left. }
  intros x ->. pose proof (sees_mv _ _ _ H1) as H2.
  eapply (got_bind _ _ (length (anchor_src d)) (fun x => x = Some a)).
  { unfold opt, link_anchor, map_opt. rewrite (tlu_run (bs "|") _ _ _ H2); [|discriminate|cbn; lia|].
    - cbn [bind]. rewrite (remaining_tk _ _ _ H2), A1. now apply got_ok.
    - apply first_stop_marks; auto.
      + destruct (desc_bar (ld_desc d)) as [->|[q ->]]; [now left|]. right. exists x7c, q. repeat split; [discriminate|now left].
      + intros p [<-|[]]; exists x7c; now left. }
  intros x ->. pose proof (sees_mv _ _ _ H2) as H3.
  eapply (got_bind _ _ _ (fun x => x = ld_desc d)).
  { exact (desc_run _ _ _ H3 F3 trans_no). }
  intros x ->. unfold new_diary_link. rewrite A4. apply got_ret. destruct d as [u dd pp]. cbn in *. now subst.
Qed.

(** * All links *)

Lemma link_run s l next tail : sees s (link_src l ++ next ++ tail) -> link_fine l next -> line_end tail ->
  got s (p_link up dp s) (length (link_src l)) (fun x => l_val x = l /\ r_off (l_reg x) = sp_start s).
Proof.
  intros H F Ht. pose proof (sees_ok _ _ H) as Hs. unfold p_link. cbn [alt].
  assert (B1 : forall (A : Type) (inner : parser A) body r, sees s ((bs "[[" ++ body ++ bs "]]") ++ r) ->
    delimited_fine (bs "]]") body -> fails (inner (within (bs "[[") body s)) -> fails (bracket_link inner s)).
  { intros A inner body r. apply bracket_inner_no. }
  assert (WB : forall body r, sees s ((bs "[[" ++ body ++ bs "]]") ++ r) -> sees (within (bs "[[") body s) body).
  { intros body r K. rewrite <- !app_assoc in K. now apply within_sees in K. }
  assert (T : forall (w body : str) o, sees o body -> starts_with w body = false -> forall r, remaining o <> w ++ r).
  { intros w body o [_ ->] E r ->. assert (K : starts_with w (w ++ r) = true) by (apply starts_with_spec; eauto). congruence. }
  destruct l as [d|i d|n d|t d|d|d].
  - destruct F as (F1 & F2 & F3). pose proof (WB _ _ H) as W.
    assert (N : forall w, In w [bs "diary:"; bs "wiki"; bs "wn."] -> forall r, remaining (within (bs "[[") (inside_src (LWiki d)) s) <> w ++ r).
    { intros w Hw r. rewrite (proj2 W). now apply F3. }
    apply got_palt_r; [|apply got_palt_r; [|apply got_palt_r; [|apply got_palt_l; apply (wiki_run s d (next ++ tail)); [exact H|split; auto]]]];
      eapply B1; try exact H; auto.
    + rewrite tag_none; [exact I|]. apply N. now left.
    + apply fails_bind, index_no. apply N. right. now left.
    + apply fails_bind, name_no. apply N. right. right. now left.
  - pose proof (WB _ _ H) as W. destruct F as (F1 & F2 & F3).
    apply got_palt_r; [|apply got_palt_l; apply (indexed_run s i d (next ++ tail)); [exact H|split; auto]].
    eapply B1; try exact H; auto. rewrite tag_none; [exact I|]. apply (T _ _ _ W). reflexivity.
  - pose proof (WB _ _ H) as W. destruct F as (F1 & F2 & F3).
    apply got_palt_r; [|apply got_palt_r; [|apply got_palt_l; apply (named_run s n d (next ++ tail)); [exact H|split; auto]]];
      eapply B1; try exact H; auto.
    + rewrite tag_none; [exact I|]. apply (T _ _ _ W). reflexivity.
    + apply fails_bind, index_no. apply (T _ _ _ W). reflexivity.
  - apply got_palt_l. apply (diary_run s t d (next ++ tail)); auto.
  - pose proof F as ((sc & S1 & S2) & E & _). destruct (web_scheme_head _ _ _ E S1 S2) as (c & q & Eq & Hc).
    assert (N : forall r, remaining s <> bs "[[" ++ r).
    { intros r. rewrite (proj2 H). cbn [SpecRound.link_src SpecRound.inside_src]. rewrite Eq. cbn. intro K. injection K as -> _.
      vm_compute in Hc. intuition discriminate. }
    do 4 (apply got_palt_r; [now apply bracket_no|]). apply got_palt_l. now apply (raw_run s d next tail).
  - assert (N : forall r, remaining s <> bs "[[" ++ r).
    { intros r. rewrite (proj2 H). cbn. discriminate. }
    do 4 (apply got_palt_r; [now apply bracket_no|]). apply got_palt_r.
    + apply raw_no; auto. rewrite (proj2 H). cbn. intro K. apply web_letter in K.
      vm_compute in K. intuition discriminate.
    + apply got_palt_l. now apply (trans_run s d (next ++ tail)).
Qed.
Lemma link_no s : span_ok s -> (forall r, remaining s <> bs "[[" ++ r) -> (forall r, remaining s <> bs "{{" ++ r) ->
  ~ web_head (remaining s) -> fails (p_link up dp s).
Proof.
  intros Hs N1 N2 N3. unfold p_link. cbn [alt].
  do 4 (apply fails_palt; [now apply bracket_no|]). apply fails_palt; [now apply raw_no|].
  apply fails_palt; [now apply trans_no|exact I].
Qed.
End Links.
