(** Two runs of the inline parsers side by side. *)
From Verif Require Import Base ModelAst ModelTable ModelLink ModelInline ModelBlock ModelSpan ModelComb
  SpecDoc SpecTree SpecSpan SpecEq SpecLines ProofBase ProofBytes ProofSpan ProofPrim ProofLines1 ProofLines2.

Section Twin.
Context {E : twin}.
Variable up : str -> option uri.
Variable dp : str -> option date.

Ltac cl := split; vm_compute; intuition discriminate.
Ltac nn := discriminate.

Lemma rel_bind_eq {A B} (R : A -> A -> Prop) (Q : B -> B -> Prop) r r' f f' :
  rel R r r' -> (forall s s' a a', r = Ok s a -> r' = Ok s' a' -> sim s s' -> R a a' -> rel Q (f s a) (f' s' a')) ->
  rel Q (bind r f) (bind r' f').
Proof.
  destruct r, r'; simpl; try tauto; intros H W; auto.
  - destruct H. now apply W.
  - destruct (f s a); auto.
Qed.
Lemma F2_eq {A} (l l' : list A) : Forall2 eq l l' -> l = l'.
Proof. induction 1; congruence. Qed.
Lemma F2_pair {A B} (l l' : list (A * B)) : Forall2 (pair_rel eq eq) l l' -> l = l'.
Proof. induction 1 as [|[a b] [a' b'] l l' [H1 H2] _ IH]; simpl in *; congruence. Qed.
Lemma simp_map_parser' {B} (Q : B -> B -> Prop) p p' (q q' : parser B) :
  simp sim p p' -> simp Q q q' -> simp Q (map_parser p q) (map_parser p' q').
Proof.
  intros H W s s' Hs. eapply rel_bind; [now apply H|]. intros t t' o o' Ht Ho.
  eapply rel_bind; [now apply W|]. intros. now apply rel_ok.
Qed.
Lemma simp_cow p : simp simL p p -> simp eq (map_parser p cow_str) (map_parser p cow_str).
Proof. intro H. apply simp_map_parser; auto. apply simpL_cow. Qed.
Lemma simp_at {A} (R : A -> A -> Prop) p p' s s' : simp R p p' -> sim s s' -> rel R (p s) (p' s').
Proof. intros H Hs. now apply H. Qed.

Ltac step L := eapply rel_bind; [apply (simp_at _ _ _ _ _ L); assumption|]; intros.
Ltac fin := apply rel_ok; [assumption|].

(** * Comments *)

Lemma simp_line_comment : simp (RL eq) line_comment line_comment.
Proof.
  apply simp_located. intros s s' Hs. step (simp_tag pct2 ltac:(cl)).
  step (simp_cow _ simp_to_eol). subst. fin. reflexivity.
Qed.
Lemma many0_stop {A} (p : parser A) f : forall s s1 l, many0_fuel f p s = Ok s1 l -> p s1 = Err.
Proof.
  induction f as [|f IH]; intros s s1 l H; [discriminate|]. cbn [many0_fuel] in H. destruct (p s) as [t a| | |] eqn:P; try discriminate.
  - destruct (span_eqb t s); [discriminate|]. destruct (many0_fuel f p t) as [t2 l2| | |] eqn:M; try discriminate.
    simpl in H. injection H as <- <-. eapply IH; eauto.
  - injection H as <- <-. exact P.
Qed.
Lemma line_left s s' : sim s s' ->
  terminated (map_parser take_until_end_of_line_or_input cow_str) line_ending s = Err -> no_nl (remaining s).
Proof.
  intros Hs H. destruct (sim_ok _ _ Hs) as [O1 O2]. destruct (sim_rem _ _ Hs) as [R1 R2].
  pose proof (eol_first (remaining s)) as F. pose proof F as (F1 & F2 & F3).
  destruct F3 as [F3|[F3|(p & [] & _)]].
  - intro X. apply In_nth_error in X as [j X]. assert (J : j < length (remaining s)) by (apply nth_error_Some; congruence).
    destruct (F2 j) as [F4 _]; [lia|]. apply F4. left. apply nth_error_split in X as (a & b & X1 & X2). exists a, b. auto.
  - exfalso. unfold terminated, map_parser, cow_str in H.
    rewrite (takes_split _ _ _ O1 (take_until_eol_eq s O1)) in H. cbn [bind ok_split] in H. unfold line_ending, palt, tag in H.
    assert (M : remaining (advance_start_by (eol_stop (remaining s)) s) = skipn (eol_stop (remaining s)) (remaining s)).
    { apply (moved_remaining s); auto. now apply advance_moved. }
    rewrite M in H. destruct F3 as [F3|F3]; apply found_sw in F3 as [_ F3].
    + unfold nl_str in H. rewrite F3 in H. discriminate.
    + destruct (starts_with nl_str _); [discriminate|]. unfold crlf_str in H. rewrite F3 in H. discriminate.
Qed.
Lemma simp_comment_lines : simp eq comment_lines comment_lines.
Proof.
  intros s s' Hs. unfold comment_lines. eapply rel_bind_eq.
  - refine (simp_many0 eq _ _ _ _ _ Hs). eapply simp_terminated; [exact (simp_cow _ simp_to_eol)|exact simp_line_ending].
  - intros t t' l l' Q1 Q2 Ht Hl. apply F2_eq in Hl. subst l'. unfold many0 in Q1. apply many0_stop in Q1.
    pose proof (line_left _ _ Ht Q1) as N. assert (HL : simL t t') by (split; auto).
    unfold rest_len. cbn [bind]. rewrite (simL_len _ _ HL). destruct (0 <? remaining_len t); [|apply rel_ok; auto].
    unfold map_parser, rest, cow_str. cbn [bind]. rewrite (simL_len _ _ HL), (proj1 (simL_rem _ _ HL)).
    apply rel_ok; auto. destruct (sim_len _ _ Ht) as [L1 L2]. apply adv_line; auto; [lia|]. now apply no_nl_firstn.
Qed.
Lemma simp_multi_line_comment : simp (RL eq) multi_line_comment multi_line_comment.
Proof.
  apply simp_located. intros s s' Hs. step (simp_tag (bs "%%+") ltac:(cl)).
  step (simp_map_parser' eq _ _ _ _ (simp_take_until (bs "+%%") ltac:(cl) ltac:(nn)) simp_comment_lines).
  step (simp_tag (bs "+%%") ltac:(cl)). subst. fin. reflexivity.
Qed.
Lemma simp_comment : simp (RL eq) p_comment p_comment.
Proof. apply simp_palt; [exact simp_multi_line_comment|exact simp_line_comment]. Qed.

(** * Code, math, tags *)

Lemma simp_nc L R : clean L -> clean R -> R <> [] ->
  simp simL (not_contains pct2 (surround_in_line1 L R)) (not_contains pct2 (surround_in_line1 L R)).
Proof. intros. apply simp_not_contains, simp_surround; auto. Qed.
Lemma simp_code : simp (RL eq) code_inline code_inline.
Proof. apply simp_located, simp_cow, simp_nc; [cl|cl|nn]. Qed.
Lemma simp_tlu1 p : clean p -> p <> [] -> length p <= 2 -> simp simL (take_line_until1 p) (take_line_until1 p).
Proof. intros. apply simp_tlu1_, simp_tlu; auto. Qed.
Lemma simp_math : simp (RL eq) math_inline math_inline.
Proof.
  apply simp_located, simp_cow. eapply simp_delimited; [apply simp_pchar; nn| |apply simp_pchar; nn].
  apply simp_not_contains, simp_tlu1; [cl|nn|vm_compute; lia].
Qed.
Lemma simp_tag_content : simp eq tag_content tag_content.
Proof. apply simp_cow. apply simp_tlu1_. apply simp_tlu3; [cl|nn|cl|nn|cl|nn]. Qed.
Lemma simp_tags : simp (RL eq) tags tags.
Proof.
  apply simp_located. apply simp_map_parser; [exact simp_whole_word|]. apply simp_L. intros s s' Hs.
  step (simp_pchar x3a ltac:(nn) ltac:(nn)).
  step (simp_many1 eq _ _ (simp_terminated _ _ _ _ _ _ simp_tag_content (simp_pchar x3a ltac:(nn) ltac:(nn)))).
  fin. now apply F2_eq.
Qed.

(** * Links *)

Lemma word_same l : nocr l -> word_len (w l) = word_len (u l).
Proof.
  induction l as [|t l IH]; intro H; [reflexivity|].
  destruct (head_cases _ H) as [Q|[(t' & r & Q & N1 & N2 & E1 & E2)|(t' & r & Q & N1 & E1 & E2)]]; [discriminate| |];
    injection Q as <- <-; rewrite E1.
  - rewrite E2. cbn [word_len]. apply beqb_neq in N2. rewrite N2. cbn [andb]. rewrite IH; [reflexivity|].
    now apply (nocr_app [t]) in H.
  - destruct E2 as [-> | ->]; reflexivity.
Qed.
Lemma word_step s : span_ok s -> recognize (many1 nonspace) s =
  if word_len (remaining s) =? 0 then Err else ok_split (word_len (remaining s)) s.
Proof.
  intros [O1 O2]. unfold recognize, many1. pose proof (nonspace_step s O1 O2) as H.
  assert (WL : word_len (remaining s) <= length (remaining s)) by apply word_len_le.
  assert (RL : length (remaining s) = sp_end s - sp_start s) by (apply remaining_len_sub; split; auto).
  destruct (remaining s) as [|b r] eqn:Q; [rewrite H; reflexivity|]. cbn [word_len] in *. unfold at_multispace in H.
  destruct (is_space b || is_nl b || (beqb b b_cr && starts_with nl_str r)); rewrite H; [reflexivity|].
  cbn [bind Nat.eqb]. unfold advance_start_by at 1. simpl in RL.
  replace (sp_end s <? sp_start s + 1) with false by (symmetry; apply Nat.ltb_ge; lia). unfold many0.
  assert (Q2 : slice (sp_start s + 1) (sp_end s) (sp_inner s) = r).
  { unfold remaining in Q. apply slice_cons in Q as (_ & _ & ->). f_equal. lia. }
  destruct (many0_nonspace (S (remaining_len (Span (sp_inner s) (sp_start s + 1) (sp_end s) (sp_depth s)))) (sp_inner s) (sp_start s + 1) (sp_end s) (sp_depth s))
    as [l [Hl _]]; [lia|lia| |].
  { unfold remaining_len. cbn [sp_start sp_end]. destruct (Nat.leb_spec (sp_start s + 1) (sp_end s)); lia. }
  rewrite Hl. cbn [bind sp_start]. rewrite Q2. unfold ok_split, advance_start_by, advance_end_by.
  replace (sp_start s + 1 + word_len r <? sp_start s) with false by (symmetry; apply Nat.ltb_ge; lia).
  simpl in WL. replace (sp_end s <? sp_start s + S (word_len r)) with false by (symmetry; apply Nat.ltb_ge; lia).
  f_equal; f_equal; lia.
Qed.
Lemma simp_word : simp simL (recognize (many1 nonspace)) (recognize (many1 nonspace)).
Proof.
  intros s s' Hs. destruct (sim_ok _ _ Hs) as [O1 O2]. destruct (sim_rem _ _ Hs) as [R1 R2].
  rewrite !word_step by auto. rewrite R2, word_same, <- R1 by apply k_nocr. destruct (_ =? 0); [exact I|].
  apply ok_split_line; auto.
  - rewrite R1, <- u_length. apply word_len_le.
  - intro X. pose proof (word_len_free (remaining s)) as F. rewrite Forall_forall in F. destruct (F _ X) as [_ F2]. discriminate.
Qed.
Lemma simp_uri_ref : simp eq (uri_ref up) (uri_ref up).
Proof.
  unfold uri_ref. fold nonspace. eapply simp_map_opt; [exact simp_word|]. intros a a' H. rewrite (proj1 (simL_rem _ _ H)).
  destruct (up (remaining a)); reflexivity.
Qed.
Lemma simp_raw : simp (RL eq) (raw_link up) (raw_link up).
Proof.
  apply simp_located. intros s s' Hs.
  step (simp_verify eq _ _ is_raw_scheme is_raw_scheme simp_uri_ref ltac:(congruence)). subst. fin. reflexivity.
Qed.
Lemma simp_link_uri_ref : simp eq (link_uri_ref up) (link_uri_ref up).
Proof.
  intros s s' Hs. unfold link_uri_ref.
  step (simp_tlu1_ _ (simp_tlu3 (bs "|") (bs "]]") (bs "}}") ltac:(cl) ltac:(nn) ltac:(cl) ltac:(nn) ltac:(cl) ltac:(nn))).
  rewrite (proj1 (simL_rem _ _ H0)). destruct (up (remaining a)); [now apply rel_ok|]. destruct (up (encode_uri (remaining a))); [now apply rel_ok|exact I].
Qed.
Lemma opt_refl {A} (o : option A) : opt_rel eq o o.
Proof. destruct o; reflexivity. Qed.
Lemma opt_eq {A} (o o' : option A) : opt_rel eq o o' -> o = o'.
Proof. destruct o, o'; simpl; congruence || tauto. Qed.
Lemma simp_link_anchor : simp eq link_anchor link_anchor.
Proof.
  eapply simp_map_opt; [apply (simp_tlu (bs "|")); [cl|nn|vm_compute; lia]|]. intros a a' H. rewrite (proj1 (simL_rem _ _ H)). apply opt_refl.
Qed.
Lemma simp_link_properties : simp eq link_properties link_properties.
Proof.
  intros s s' Hs. unfold link_properties. step (simp_tag (bs "|") ltac:(cl)).
  refine (simp_pmap _ eq _ _ _ _ _ _ _ _ H).
  - eapply simp_sep1; [exact simp_space1|]. eapply simp_separated_pair.
    + apply simp_cow, simp_tlu1; [cl|nn|vm_compute; lia].
    + apply (simp_tag (bs "=")). cl.
    + apply simp_cow. eapply simp_delimited; [apply simp_tag; cl| |apply simp_tag; cl]. apply simp_tlu; [cl|nn|vm_compute; lia].
  - intros l l' Hl. apply F2_pair in Hl. now subst.
Qed.
Lemma simp_link_description_ tr tr' : simp (RL eq) tr tr' -> simp eq (link_description_ tr) (link_description_ tr').
Proof.
  intros T s s' Hs. unfold link_description_. step (simp_tag (bs "|") ltac:(cl)).
  refine (simp_map_parser eq _ _ _ _ (simp_tlu (bs "|") ltac:(cl) ltac:(nn) ltac:(vm_compute; lia)) _ _ _ H).
  intros t t' Ht. apply rel_palt.
  - refine (simp_pmap _ eq _ _ _ _ T _ _ _ (proj1 Ht)). intros x x' (Hx & _). now rewrite Hx.
  - unfold pmap, rest. cbn [bind]. rewrite (simL_len _ _ Ht), (proj1 (simL_rem _ _ Ht)). destruct Ht as [Ht N].
    apply rel_ok; auto. destruct (sim_len _ _ Ht) as [L1 L2]. apply adv_line; auto; [lia|]. now apply no_nl_firstn.
Qed.
Lemma simp_link_data_ tr tr' : simp (RL eq) tr tr' -> simp eq (link_data_ up tr) (link_data_ up tr').
Proof.
  intros T s s' Hs. unfold link_data_. step simp_link_uri_ref. step (simp_opt eq _ _ (simp_link_description_ _ _ T)).
  step (simp_opt eq _ _ simp_link_properties). fin. apply opt_eq in H2, H4. congruence.
Qed.
Lemma simp_transclusion_link f : forall f', simp (RL eq) (transclusion_link up f) (transclusion_link up f').
Proof.
  induction f as [|f IH]; intros f' s s' Hs; [exact I|]. destruct f' as [|f'].
  { simpl. destruct (located_p _ s); exact I. }
  cbn [transclusion_link]. refine (simp_located eq _ _ _ _ _ Hs).
  apply simp_map_parser; [apply simp_nc; [cl|cl|nn]|]. apply simp_L. intros t t' Ht. step (simp_link_data_ _ _ (IH f')). fin. congruence.
Qed.
Lemma simp_transclusion : simp (RL eq) (p_transclusion up) (p_transclusion up).
Proof. intros s s' Hs. apply simp_transclusion_link. exact Hs. Qed.
Lemma simp_bracket {A} (R : A -> A -> Prop) p p' : simp R p p' -> simp (RL R) (bracket_link p) (bracket_link p').
Proof. intro H. apply simp_located, simp_map_parser; [apply simp_nc; [cl|cl|nn]|]. now apply simp_L. Qed.
Lemma simp_description : simp eq (link_description up) (link_description up).
Proof. apply simp_link_description_, simp_transclusion. Qed.
Lemma simp_wiki : simp (RL eq) (wiki_link up) (wiki_link up).
Proof.
  apply simp_bracket. intros s s' Hs. step (simp_link_data_ _ _ simp_transclusion). fin. congruence.
Qed.
Lemma simp_diary : simp (RL eq) (diary_link up dp) (diary_link up dp).
Proof.
  apply simp_bracket. intros s s' Hs. step (simp_tag (bs "diary:") ltac:(cl)).
  eapply rel_bind with (R := eq).
  - refine (simp_map_opt simL eq _ _ _ _ _ _ _ _ H).
    + apply simp_tlu1_, simp_tlu2; [cl|nn|cl|nn].
    + intros x x' Hx. rewrite (proj1 (simL_rem _ _ Hx)). apply opt_refl.
  - intros. step (simp_opt eq _ _ simp_link_anchor). step (simp_opt eq _ _ simp_description). apply opt_eq in H4, H6. subst.
    destruct (new_diary_link _ _ _ _); [now apply rel_ok|exact I].
Qed.
Lemma simp_index : simp eq indexed_link_index indexed_link_index.
Proof.
  eapply simp_map_opt.
  - eapply simp_delimited; [apply simp_tag; cl| |apply simp_tag; cl]. apply simp_tlu1; [cl|nn|vm_compute; lia].
  - intros x x' Hx. rewrite (proj1 (simL_rem _ _ Hx)). apply opt_refl.
Qed.
Lemma simp_indexed : simp (RL eq) (indexed_interwiki_link up) (indexed_interwiki_link up).
Proof.
  apply simp_bracket. intros s s' Hs. step simp_index. step simp_link_uri_ref. step (simp_opt eq _ _ simp_description).
  fin. apply opt_eq in H4. congruence.
Qed.
Lemma simp_named : simp (RL eq) (named_interwiki_link up) (named_interwiki_link up).
Proof.
  apply simp_bracket. intros s s' Hs.
  assert (L : simp eq named_link_name named_link_name).
  { apply simp_cow. eapply simp_delimited; [apply simp_tag; cl| |apply simp_tag; cl]. apply simp_tlu1; [cl|nn|vm_compute; lia]. }
  step L. step simp_link_uri_ref. step (simp_opt eq _ _ simp_description).
  fin. apply opt_eq in H4. congruence.
Qed.
Lemma simp_link : simp (RL eq) (p_link up dp) (p_link up dp).
Proof.
  apply simp_alt. repeat constructor;
    [exact simp_diary|exact simp_indexed|exact simp_named|exact simp_wiki|exact simp_raw|exact simp_transclusion].
Qed.

(** * Text *)

Lemma simp_keyword : simp (RL eq) p_keyword p_keyword.
Proof. apply simp_located, simp_alt. repeat constructor; eapply simp_value, simp_tag; cl. Qed.
Lemma sim_back s s' : sim s s' ->
  let n := count_while (fun b => negb (is_ascii_ws b)) (rev (consumed s)) in
  count_while (fun b => negb (is_ascii_ws b)) (rev (consumed s')) = n /\ sim (backtrack_start_by n s) (backtrack_start_by n s').
Proof.
  intro Hs. cbv zeta. destruct (sim_con _ _ Hs) as [C1 C2]. rewrite C1, C2.
  destruct (rcw_same (fun b => negb (is_ascii_ws b)) (firstn (sp_start s) toks)) as [A1 A2]; [apply nocr_firstn, toks_nocr|reflexivity|].
  cbv zeta in *. rewrite A1. split; [reflexivity|]. destruct Hs as (E1 & E2 & H1 & H2 & P1 & P2 & D).
  set (n := count_while (fun b => negb (is_ascii_ws b)) (rev (u (firstn (sp_start s) toks)))) in *. assert (N : n <= sp_start s).
  { unfold n. etransitivity; [apply count_while_le|]. rewrite rev_length, u_length, firstn_length. lia. }
  assert (P : pos (sp_start s) = pos (sp_start s - n) + n).
  { replace (sp_start s) with (sp_start s - n + n) at 1 by lia. rewrite pos_add by lia. f_equal.
    rewrite firstn_length, Nat.min_l in A2 by lia. apply w_len_line; [|rewrite skipn_length; lia].
    rewrite u_skipn, skipn_firstn_comm in A2. replace (sp_start s - (sp_start s - n)) with n in A2 by lia. rewrite <- u_firstn in A2. exact A2. }
  unfold backtrack_start_by. rewrite P1.
  replace (sp_start s <? n) with false by (symmetry; apply Nat.ltb_ge; lia).
  replace (pos (sp_start s) <? n) with false by (symmetry; apply Nat.ltb_ge; lia).
  repeat split; simpl; auto; lia.
Qed.
Lemma simp_backtrack : simp (RL eq) (raw_link_backtrack up) (raw_link_backtrack up).
Proof.
  eapply simp_preceded; [apply simp_peek, simp_pchar; nn|]. intros s s' Hs. destruct (sim_back _ _ Hs) as [A1 A2].
  rewrite A1. now apply simp_raw.
Qed.

Notation NI := (n_inline (fun u => u) nowhere).
Notation NDC := (n_dc (fun u => u) nowhere).
Definition Rin (i i' : inline) : Prop := NI i = NI i'.
Definition Rdc (i i' : dcontent) : Prop := NDC i = NDC i'.
Definition Rdec (d d' : decorated) : Prop := fst d = fst d' /\ map (n_loc nowhere NDC) (snd d) = map (n_loc nowhere NDC) (snd d').
Lemma RL_loc {A} (f : A -> A) x x' : RL (fun a b => f a = f b) x x' -> n_loc nowhere f x = n_loc nowhere f x'.
Proof. intros (H & _). unfold n_loc. now rewrite H. Qed.
Lemma F2_map {A B} (R : A -> A -> Prop) (f : A -> B) l l' : Forall2 R l l' -> (forall a a', R a a' -> f a = f a') -> map f l = map f l'.
Proof. intros H W. induction H; simpl; [reflexivity|]. f_equal; auto. Qed.

Lemma simp_non_text_ dec dec' : simp (RL Rdec) dec dec' -> simp (RL Rin) (non_text_ up dp dec) (non_text_ up dp dec').
Proof.
  intro D. apply simp_alt. repeat constructor.
  - eapply simp_lmap; [eapply simp_preceded; [apply simp_peek, simp_pchar; nn|exact simp_comment]|]. intros; subst; reflexivity.
  - eapply simp_lmap; [eapply simp_preceded; [apply simp_peek, simp_pchar; nn|exact simp_code]|]. intros; subst; reflexivity.
  - eapply simp_lmap; [eapply simp_preceded; [apply simp_peek, simp_pchar; nn|exact simp_math]|]. intros; subst; reflexivity.
  - eapply simp_lmap; [eapply simp_preceded; [apply simp_peek, simp_pchar; nn|exact simp_tags]|]. intros; subst; reflexivity.
  - eapply simp_lmap; [eapply simp_preceded; [apply simp_peek, simp_palt; apply simp_pchar; nn|exact simp_link]|]. intros; subst; reflexivity.
  - eapply simp_lmap; [eapply simp_preceded; [apply simp_peek, simp_alt; repeat constructor; apply simp_pchar; nn|exact D]|].
    intros a a' [H1 H2]. unfold Rin. simpl. now rewrite H1, H2.
  - eapply simp_lmap; [exact simp_keyword|]. intros; subst; reflexivity.
  - eapply simp_lmap; [exact simp_backtrack|]. intros; subst; reflexivity.
Qed.

Lemma pos_line s s' n : sim s s' -> n <= length (k s) -> no_nl (firstn n (remaining s)) -> pos (sp_start s + n) = pos (sp_start s) + n.
Proof.
  intros Hs L N. pose proof (k_length _ _ Hs) as K. destruct (sim_rem _ _ Hs) as [R1 _]. destruct Hs as (E1 & E2 & H1 & H2 & P1 & P2 & D).
  rewrite pos_add by lia. f_equal.
  replace (firstn n (skipn (sp_start s) toks)) with (firstn n (k s)) by (unfold k, slice; rewrite firstn_firstn, Nat.min_l by lia; reflexivity).
  apply w_len_line; auto. now rewrite <- R1.
Qed.
Lemma pos_far i n : i + n <= length toks -> pos i + n <= pos (i + n).
Proof. intro H. rewrite pos_add by auto. pose proof (w_long (firstn n (skipn i toks))) as L. rewrite firstn_length, skipn_length in L. lia. Qed.

Lemma rel_text_loop (Q : inline -> inline -> Prop) nt nt' s s' : simp (RL Q) nt nt' -> sim s s' ->
  forall f f' ti ti' len, sim ti ti' -> sp_end ti = sp_end s -> len <= length (k s) ->
  sp_start ti = sp_start s + len -> no_nl (firstn len (remaining s)) ->
  rel (fun l l' => l' = l /\ l <= length (k s) /\ no_nl (firstn l (remaining s))) (text_loop f nt ti len) (text_loop f' nt' ti' len).
Proof.
  intros NT Hs. pose proof (k_length _ _ Hs) as K. destruct (sim_rem _ _ Hs) as [R1 R2].
  induction f as [|f IH]; intros f' ti ti' len Ht He Hl Hst N; [exact I|]. destruct f' as [|f'].
  { destruct (text_loop (S f) nt ti len); exact I. }
  assert (STOP : rel (fun l l' => l' = l /\ l <= length (k s) /\ no_nl (firstn l (remaining s))) (Ok ti len) (Ok ti' len)) by (apply rel_ok; auto).
  cbn [text_loop].
  destruct (head_step _ _ Ht) as [[-> ->]|[(b & r & r' & Q1 & Q2 & N1 & N2 & A)|[(r & r' & -> & -> & A)|(r & r' & -> & -> & A)]]]; try exact STOP.
  rewrite Q1, Q2. unfold is_nl. apply beqb_neq in N1 as N1', N2 as N2'. rewrite N1', N2'. cbn [orb andb].
  pose proof (NT _ _ Ht) as X. destruct (nt ti) as [t x| | |], (nt' ti') as [t' x'| | |]; simpl in X; try contradiction; try exact I.
  - destruct X as (_ & _ & X1 & X2). rewrite X2. pose proof Ht as (F1 & F2 & G1 & G2 & S1 & S2 & D2). rewrite S1, pos_ltb by lia.
    destruct (r_off (l_reg x) <? sp_start ti) eqn:C; [|exact STOP]. apply Nat.ltb_lt in C.
    destruct (len <? sp_start ti - r_off (l_reg x)) eqn:C2.
    + apply Nat.ltb_lt in C2. pose proof (pos_far (r_off (l_reg x)) (sp_start ti - r_off (l_reg x)) ltac:(lia)) as PF.
      replace (r_off (l_reg x) + (sp_start ti - r_off (l_reg x))) with (sp_start ti) in PF by lia.
      replace (len <? pos (sp_start ti) - pos (r_off (l_reg x))) with true by (symmetry; apply Nat.ltb_lt; lia). exact I.
    + apply Nat.ltb_ge in C2.
      assert (P1 : pos (sp_start ti) = pos (sp_start s) + len) by (rewrite Hst; eapply pos_line; eauto).
      assert (P2 : pos (r_off (l_reg x)) = pos (sp_start s) + (r_off (l_reg x) - sp_start s)).
      { rewrite <- (pos_line s s'); auto; try lia; [f_equal; lia|].
        replace (firstn (r_off (l_reg x) - sp_start s) (remaining s)) with (firstn (r_off (l_reg x) - sp_start s) (firstn len (remaining s))) by (rewrite firstn_firstn; f_equal; lia).
        now apply no_nl_firstn. }
      rewrite P1, P2. replace (pos (sp_start s) + len - (pos (sp_start s) + (r_off (l_reg x) - sp_start s))) with (sp_start ti - r_off (l_reg x)) by lia.
      replace (len <? sp_start ti - r_off (l_reg x)) with false by (symmetry; apply Nat.ltb_ge; lia).
      apply rel_ok; auto. split; [reflexivity|]. split; [lia|].
      replace (firstn (len - (sp_start ti - r_off (l_reg x))) (remaining s)) with (firstn (len - (sp_start ti - r_off (l_reg x))) (firstn len (remaining s))) by (rewrite firstn_firstn; f_equal; lia).
      now apply no_nl_firstn.
  - destruct (r_off _ <? _); [|exact I]. destruct (_ <? _); exact I.
  - destruct (sim_rem _ _ Ht) as [T1 _]. pose proof (k_length _ _ Ht) as K2.
    assert (LT : 1 <= length (k ti)) by (rewrite <- u_length, <- T1, Q1; simpl; lia).
    assert (ST : remaining ti = skipn len (remaining s)).
    { unfold remaining. destruct Hs as (-> & _). destruct Ht as (-> & _). rewrite skipn_slice, He, Hst. reflexivity. }
    assert (AD : sp_start (advance_start_by 1 ti) = sp_start s + (len + 1) /\ sp_end (advance_start_by 1 ti) = sp_end s).
    { unfold advance_start_by. cbn [sp_start sp_end]. destruct (Nat.ltb_spec (sp_end ti) (sp_start ti + 1)); split; lia. }
    apply IH; try tauto; try lia.
    rewrite <- (firstn_skipn len (remaining s)), firstn_app, <- ST, Q1. apply no_nl_app. split; [apply no_nl_firstn; exact N|].
    rewrite firstn_length, R1, u_length. replace (len + 1 - Nat.min len (length (k s))) with 1 by lia. simpl. intros [Z|[]]. auto.
  - destruct (text_loop f nt (advance_start_by 1 ti) (len + 1)); exact I.
Qed.
Lemma rem_with_length n t : span_ok t -> remaining (with_length n t) = firstn n (remaining t).
Proof.
  intro O. unfold with_length. destruct (n <? remaining_len t) eqn:C.
  - apply remaining_taken; auto. apply Nat.ltb_lt in C. rewrite remaining_len_eq in C by auto. lia.
  - apply Nat.ltb_ge in C. rewrite remaining_len_eq in C by auto. now rewrite firstn_all2.
Qed.
Lemma simp_text_ Q nt nt' : simp (RL Q) nt nt' -> simp (RL eq) (text_ nt) (text_ nt').
Proof.
  intro NT. apply simp_located. intros s s' Hs. destruct (sim_rem _ _ Hs) as [R1 R2]. destruct (sim_ok _ _ Hs) as [O1 O2].
  eapply rel_bind.
  - eapply rel_text_loop with (s := s) (s' := s'); eauto; try lia. intros [].
  - intros t t' l l' Ht (-> & L & N). destruct (0 <? l); [|exact I]. apply rel_ok; [now apply adv_line|].
    rewrite !rem_with_length by auto. rewrite R1 in *. rewrite R2, w_first; auto.
Qed.
Lemma simp_contents_ dec dec' : simp (RL Rdec) dec dec' ->
  simp (fun l l' => map (n_loc nowhere NDC) l = map (n_loc nowhere NDC) l') (decorated_text_contents_ up dp dec) (decorated_text_contents_ up dp dec').
Proof.
  intro D. eapply simp_weaken with (R := Forall2 (RL Rdc)).
  - apply simp_many1, simp_alt. repeat constructor.
    + eapply simp_lmap; [exact simp_link|]. intros; subst; reflexivity.
    + eapply simp_lmap; [exact simp_keyword|]. intros; subst; reflexivity.
    + eapply simp_lmap; [exact D|]. intros a a' [H1 H2]. unfold Rdc. simpl. now rewrite H1, H2.
    + eapply simp_lmap; [eapply simp_text_, simp_non_text_, D|]. intros; subst; reflexivity.
  - intros l l' H. eapply F2_map; [exact H|]. intros. now apply RL_loc.
Qed.
Lemma simp_deco_text kd delim dec dec' : clean delim -> delim <> [] -> simp (RL Rdec) dec dec' ->
  simp Rdec (deco_text up dp kd delim dec) (deco_text up dp kd delim dec').
Proof.
  intros C N D. eapply simp_pmap.
  - apply simp_map_parser; [now apply simp_nc|]. apply simp_L, simp_deeper, simp_contents_, D.
  - intros. split; auto.
Qed.
Lemma simp_decorated_text f : forall f', simp (RL Rdec) (decorated_text up dp f) (decorated_text up dp f').
Proof.
  induction f as [|f IH]; intros f' s s' Hs; [exact I|]. destruct f' as [|f'].
  { simpl. destruct (located_p _ s); exact I. }
  cbn [decorated_text]. refine (simp_located Rdec _ _ _ _ _ Hs). apply simp_alt.
  repeat constructor; (apply simp_deco_text; [cl|nn|apply IH]).
Qed.
Lemma simp_decorated : simp (RL Rdec) (p_decorated up dp) (p_decorated up dp).
Proof. intros s s' Hs. apply simp_decorated_text. exact Hs. Qed.
Lemma simp_inline : simp (RL Rin) (inline_element up dp) (inline_element up dp).
Proof.
  apply simp_alt. repeat constructor.
  - eapply simp_lmap; [exact simp_comment|]. intros; subst; reflexivity.
  - eapply simp_lmap; [exact simp_math|]. intros; subst; reflexivity.
  - eapply simp_lmap; [exact simp_code|]. intros; subst; reflexivity.
  - eapply simp_lmap; [exact simp_tags|]. intros; subst; reflexivity.
  - eapply simp_lmap; [exact simp_link|]. intros; subst; reflexivity.
  - eapply simp_lmap; [exact simp_decorated|]. intros a a' [H1 H2]. unfold Rin. simpl. now rewrite H1, H2.
  - eapply simp_lmap; [exact simp_keyword|]. intros; subst; reflexivity.
  - eapply simp_lmap; [eapply simp_text_, simp_non_text_, simp_decorated|]. intros; subst; reflexivity.
Qed.
Notation NC := (n_cont (fun u => u) nowhere).
Definition Rc (c c' : container) : Prop := NC c = NC c'.
Lemma simp_container : simp (RL Rc) (inline_element_container up dp) (inline_element_container up dp).
Proof.
  apply simp_located. eapply simp_weaken; [apply simp_many1, simp_deeper, simp_inline|].
  intros l l' H. eapply F2_map; [exact H|]. intros. now apply RL_loc.
Qed.
Lemma simp_inner : simp Rc (container_inner up dp) (container_inner up dp).
Proof. eapply simp_pmap; [exact simp_container|]. now intros a a' (H & _). Qed.
End Twin.
