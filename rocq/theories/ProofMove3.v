(** The inline parsers in the middle of a text and on the rest alone. *)
From Verif Require Import Base ModelAst ModelTable ModelLink ModelInline ModelBlock ModelSpan ModelComb
  SpecDoc SpecTree SpecSpan SpecEq SpecMove ProofBase ProofBytes ProofSpan ProofPrim ProofLines1 ProofMove2.
From Verif Require ProofLines3.

Section Move.
Context {E : move}.
Variable up : str -> option uri.
Variable dp : str -> option date.

Ltac cl := split; vm_compute; intuition discriminate.
Ltac nn := discriminate.

Lemma rel_bind_eq {A B} (R : A -> A -> Prop) (Q : B -> B -> Prop) r r' f f' :
  rel R r r' -> (forall s s' a a', r = Ok s a -> r' = Ok s' a' -> sim s s' -> R a a' -> rel Q (f s a) (f' s' a')) ->
  rel Q (bind r f) (bind r' f').
Proof.
  destruct r, r'; simpl; try tauto; intros H W; auto.
  - destruct H. now apply W.
  - destruct (f s a); auto.
Qed.
Lemma F2_eq {A} (l l' : list A) : Forall2 eq l l' -> l = l'.
Proof. induction 1; congruence. Qed.
Lemma F2_pair {A B} (l l' : list (A * B)) : Forall2 (pair_rel eq eq) l l' -> l = l'.
Proof. induction 1 as [|[a b] [a' b'] l l' [H1 H2] _ IH]; simpl in *; congruence. Qed.
Lemma simp_map_parser' {B} (Q : B -> B -> Prop) p p' (q q' : parser B) :
  simp sim p p' -> simp Q q q' -> simp Q (map_parser p q) (map_parser p' q').
Proof.
  intros H W s s' Hs. eapply rel_bind; [now apply H|]. intros t t' o o' Ht Ho.
  eapply rel_bind; [now apply W|]. intros. now apply rel_ok.
Qed.
Lemma simp_cow p : simp simL p p -> simp eq (map_parser p cow_str) (map_parser p cow_str).
Proof. intro H. apply simp_map_parser; auto. apply simpL_cow. Qed.
Lemma simp_at {A} (R : A -> A -> Prop) p p' s s' : simp R p p' -> sim s s' -> rel R (p s) (p' s').
Proof. intros H Hs. now apply H. Qed.

Ltac step L := eapply rel_bind; [apply (simp_at _ _ _ _ _ L); assumption|]; intros.
Ltac fin := apply rel_ok; [assumption|].

(** * Comments *)

Lemma simp_line_comment : simp (RL eq) line_comment line_comment.
Proof.
  apply simp_located. intros s s' Hs. step (simp_tag pct2 ltac:(cl)).
  step (simp_cow _ simp_to_eol). subst. fin. reflexivity.
Qed.
Lemma simp_comment_lines : simp eq comment_lines comment_lines.
Proof.
  intros s s' Hs. unfold comment_lines. eapply rel_bind_eq.
  - refine (simp_many0 eq _ _ _ _ _ Hs). eapply simp_terminated; [exact (simp_cow _ simp_to_eol)|exact simp_line_ending].
  - intros t t' l l' Q1 Q2 Ht Hl. apply F2_eq in Hl. subst l'. unfold rest_len. cbn [bind]. rewrite (sim_len _ _ Ht).
    destruct (0 <? remaining_len t); [|apply rel_ok; auto].
    unfold map_parser, rest, cow_str. cbn [bind]. rewrite (sim_len _ _ Ht), (sim_rem _ _ Ht). apply rel_ok; auto. now apply sim_adv.
Qed.
Lemma simp_multi_line_comment : simp (RL eq) multi_line_comment multi_line_comment.
Proof.
  apply simp_located. intros s s' Hs. step (simp_tag (bs "%%+") ltac:(cl)).
  step (simp_map_parser' eq _ _ _ _ (simp_take_until (bs "+%%") ltac:(cl) ltac:(nn)) simp_comment_lines).
  step (simp_tag (bs "+%%") ltac:(cl)). subst. fin. reflexivity.
Qed.
Lemma simp_comment : simp (RL eq) p_comment p_comment.
Proof. apply simp_palt; [exact simp_multi_line_comment|exact simp_line_comment]. Qed.

(** * Code, math, tags *)

Lemma simp_nc L R : clean L -> clean R -> R <> [] ->
  simp simL (not_contains pct2 (surround_in_line1 L R)) (not_contains pct2 (surround_in_line1 L R)).
Proof. intros. apply simp_not_contains, simp_surround; auto. Qed.
Lemma simp_code : simp (RL eq) code_inline code_inline.
Proof. apply simp_located, simp_cow, simp_nc; [cl|cl|nn]. Qed.
Lemma simp_tlu1 p : clean p -> p <> [] -> length p <= 2 -> simp simL (take_line_until1 p) (take_line_until1 p).
Proof. intros. apply simp_tlu1_, simp_tlu; auto. Qed.
Lemma simp_math : simp (RL eq) math_inline math_inline.
Proof.
  apply simp_located, simp_cow. eapply simp_delimited; [apply simp_pchar; nn| |apply simp_pchar; nn].
  apply simp_not_contains, simp_tlu1; [cl|nn|vm_compute; lia].
Qed.
Lemma simp_tag_content : simp eq tag_content tag_content.
Proof. apply simp_cow. apply simp_tlu1_. apply simp_tlu3; [cl|nn|cl|nn|cl|nn]. Qed.
Lemma simp_tags : simp (RL eq) tags tags.
Proof.
  apply simp_located. apply simp_map_parser; [exact simp_whole_word|]. apply simp_L. intros s s' Hs.
  step (simp_pchar x3a ltac:(nn) ltac:(nn)).
  step (simp_many1 eq _ _ (simp_terminated _ _ _ _ _ _ simp_tag_content (simp_pchar x3a ltac:(nn) ltac:(nn)))).
  fin. now apply F2_eq.
Qed.

(** * Links *)

Lemma simp_word : simp simL (recognize (many1 nonspace)) (recognize (many1 nonspace)).
Proof.
  intros s s' Hs. destruct (sim_ok _ _ Hs) as [O1 O2]. rewrite !ProofLines3.word_step by auto. rewrite (sim_rem _ _ Hs).
  destruct (_ =? 0); [exact I|]. apply split_sim; auto. apply word_len_le.
Qed.
Lemma simp_uri_ref : simp eq (uri_ref up) (uri_ref up).
Proof.
  unfold uri_ref. fold nonspace. eapply simp_map_opt; [exact simp_word|]. intros a a' H. rewrite (simL_rem _ _ H).
  destruct (up (remaining a)); reflexivity.
Qed.
Lemma simp_raw : simp (RL eq) (raw_link up) (raw_link up).
Proof.
  apply simp_located. intros s s' Hs.
  step (simp_verify eq _ _ is_raw_scheme is_raw_scheme simp_uri_ref ltac:(congruence)). subst. fin. reflexivity.
Qed.
Lemma simp_link_uri_ref : simp eq (link_uri_ref up) (link_uri_ref up).
Proof.
  intros s s' Hs. unfold link_uri_ref.
  step (simp_tlu1_ _ (simp_tlu3 (bs "|") (bs "]]") (bs "}}") ltac:(cl) ltac:(nn) ltac:(cl) ltac:(nn) ltac:(cl) ltac:(nn))).
  rewrite (simL_rem _ _ H0). destruct (up (remaining a)); [now apply rel_ok|]. destruct (up (encode_uri (remaining a))); [now apply rel_ok|exact I].
Qed.
Lemma opt_refl {A} (o : option A) : opt_rel eq o o.
Proof. destruct o; reflexivity. Qed.
Lemma opt_eq {A} (o o' : option A) : opt_rel eq o o' -> o = o'.
Proof. destruct o, o'; simpl; congruence || tauto. Qed.
Lemma simp_link_anchor : simp eq link_anchor link_anchor.
Proof.
  eapply simp_map_opt; [apply (simp_tlu (bs "|")); [cl|nn|vm_compute; lia]|]. intros a a' H. rewrite (simL_rem _ _ H). apply opt_refl.
Qed.
Lemma simp_link_properties : simp eq link_properties link_properties.
Proof.
  intros s s' Hs. unfold link_properties. step (simp_tag (bs "|") ltac:(cl)).
  refine (simp_pmap _ eq _ _ _ _ _ _ _ _ H).
  - eapply simp_sep1; [exact simp_space1|]. eapply simp_separated_pair.
    + apply simp_cow, simp_tlu1; [cl|nn|vm_compute; lia].
    + apply (simp_tag (bs "=")). cl.
    + apply simp_cow. eapply simp_delimited; [apply simp_tag; cl| |apply simp_tag; cl]. apply simp_tlu; [cl|nn|vm_compute; lia].
  - intros l l' Hl. apply F2_pair in Hl. now subst.
Qed.
Lemma simp_link_description_ tr tr' : simp (RL eq) tr tr' -> simp eq (link_description_ tr) (link_description_ tr').
Proof.
  intros T s s' Hs. unfold link_description_. step (simp_tag (bs "|") ltac:(cl)).
  refine (simp_map_parser eq _ _ _ _ (simp_tlu (bs "|") ltac:(cl) ltac:(nn) ltac:(vm_compute; lia)) _ _ _ H).
  intros t t' Ht. apply rel_palt.
  - refine (simp_pmap _ eq _ _ _ _ T _ _ _ (proj1 Ht)). intros x x' (Hx & _). now rewrite Hx.
  - unfold pmap, rest. cbn [bind]. rewrite (simL_len _ _ Ht), (simL_rem _ _ Ht). destruct Ht as [Ht _].
    apply rel_ok; auto. now apply sim_adv.
Qed.
Lemma simp_link_data_ tr tr' : simp (RL eq) tr tr' -> simp eq (link_data_ up tr) (link_data_ up tr').
Proof.
  intros T s s' Hs. unfold link_data_. step simp_link_uri_ref. step (simp_opt eq _ _ (simp_link_description_ _ _ T)).
  step (simp_opt eq _ _ simp_link_properties). fin. apply opt_eq in H2, H4. congruence.
Qed.
Lemma simp_transclusion_link f : forall f', simp (RL eq) (transclusion_link up f) (transclusion_link up f').
Proof.
  induction f as [|f IH]; intros f' s s' Hs; [exact I|]. destruct f' as [|f'].
  { simpl. destruct (located_p _ s); exact I. }
  cbn [transclusion_link]. refine (simp_located eq _ _ _ _ _ Hs).
  apply simp_map_parser; [apply simp_nc; [cl|cl|nn]|]. apply simp_L. intros t t' Ht. step (simp_link_data_ _ _ (IH f')). fin. congruence.
Qed.
Lemma simp_transclusion : simp (RL eq) (p_transclusion up) (p_transclusion up).
Proof. intros s s' Hs. apply simp_transclusion_link. exact Hs. Qed.
Lemma simp_bracket {A} (R : A -> A -> Prop) p p' : simp R p p' -> simp (RL R) (bracket_link p) (bracket_link p').
Proof. intro H. apply simp_located, simp_map_parser; [apply simp_nc; [cl|cl|nn]|]. now apply simp_L. Qed.
Lemma simp_description : simp eq (link_description up) (link_description up).
Proof. apply simp_link_description_, simp_transclusion. Qed.
Lemma simp_wiki : simp (RL eq) (wiki_link up) (wiki_link up).
Proof.
  apply simp_bracket. intros s s' Hs. step (simp_link_data_ _ _ simp_transclusion). fin. congruence.
Qed.
Lemma simp_diary : simp (RL eq) (diary_link up dp) (diary_link up dp).
Proof.
  apply simp_bracket. intros s s' Hs. step (simp_tag (bs "diary:") ltac:(cl)).
  eapply rel_bind with (R := eq).
  - refine (simp_map_opt simL eq _ _ _ _ _ _ _ _ H).
    + apply simp_tlu1_, simp_tlu2; [cl|nn|cl|nn].
    + intros x x' Hx. rewrite (simL_rem _ _ Hx). apply opt_refl.
  - intros. step (simp_opt eq _ _ simp_link_anchor). step (simp_opt eq _ _ simp_description). apply opt_eq in H4, H6. subst.
    destruct (new_diary_link _ _ _ _); [now apply rel_ok|exact I].
Qed.
Lemma simp_index : simp eq indexed_link_index indexed_link_index.
Proof.
  eapply simp_map_opt.
  - eapply simp_delimited; [apply simp_tag; cl| |apply simp_tag; cl]. apply simp_tlu1; [cl|nn|vm_compute; lia].
  - intros x x' Hx. rewrite (simL_rem _ _ Hx). apply opt_refl.
Qed.
Lemma simp_indexed : simp (RL eq) (indexed_interwiki_link up) (indexed_interwiki_link up).
Proof.
  apply simp_bracket. intros s s' Hs. step simp_index. step simp_link_uri_ref. step (simp_opt eq _ _ simp_description).
  fin. apply opt_eq in H4. congruence.
Qed.
Lemma simp_named : simp (RL eq) (named_interwiki_link up) (named_interwiki_link up).
Proof.
  apply simp_bracket. intros s s' Hs.
  assert (L : simp eq named_link_name named_link_name).
  { apply simp_cow. eapply simp_delimited; [apply simp_tag; cl| |apply simp_tag; cl]. apply simp_tlu1; [cl|nn|vm_compute; lia]. }
  step L. step simp_link_uri_ref. step (simp_opt eq _ _ simp_description).
  fin. apply opt_eq in H4. congruence.
Qed.
Lemma simp_link : simp (RL eq) (p_link up dp) (p_link up dp).
Proof.
  apply simp_alt. repeat constructor;
    [exact simp_diary|exact simp_indexed|exact simp_named|exact simp_wiki|exact simp_raw|exact simp_transclusion].
Qed.

(** * Text *)

Lemma simp_keyword : simp (RL eq) p_keyword p_keyword.
Proof. apply simp_located, simp_alt. repeat constructor; eapply simp_value, simp_tag; cl. Qed.
Lemma sim_back s s' : sim s s' ->
  let n := count_while (fun b => negb (is_ascii_ws b)) (rev (consumed s)) in
  count_while (fun b => negb (is_ascii_ws b)) (rev (consumed s')) = n /\ sim (backtrack_start_by n s) (backtrack_start_by n s').
Proof.
  intro Hs. cbv zeta. rewrite (sim_con _ _ Hs), rev_app_distr.
  assert (C : forall l, count_while (fun b => negb (is_ascii_ws b)) (l ++ rev pre) = count_while (fun b => negb (is_ascii_ws b)) l).
  { induction l as [|b l IH]; [|simpl; now rewrite IH]. destruct pre_line as [->|[x ->]]; [reflexivity|]. now rewrite rev_app_distr. }
  rewrite C. split; [reflexivity|]. destruct Hs as (E1 & E2 & H1 & H2 & P1 & P2 & D).
  set (n := count_while _ _) in *. assert (N : n <= sp_start s).
  { unfold n. etransitivity; [apply count_while_le|]. rewrite rev_length. unfold consumed. rewrite firstn_length. lia. }
  unfold backtrack_start_by, pos in *. rewrite P1.
  replace (sp_start s <? n) with false by (symmetry; apply Nat.ltb_ge; lia).
  replace (length pre + sp_start s <? n) with false by (symmetry; apply Nat.ltb_ge; lia).
  repeat split; simpl; auto; unfold pos; lia.
Qed.
Lemma simp_backtrack : simp (RL eq) (raw_link_backtrack up) (raw_link_backtrack up).
Proof.
  eapply simp_preceded; [apply simp_peek, simp_pchar; nn|]. intros s s' Hs. destruct (sim_back _ _ Hs) as [A1 A2].
  rewrite A1. now apply simp_raw.
Qed.

Notation idr := (fun r : region => r).
Notation NI := (n_inline (fun u => u) sh).
Notation NI' := (n_inline (fun u => u) idr).
Notation NDC := (n_dc (fun u => u) sh).
Notation NDC' := (n_dc (fun u => u) idr).
Definition Rin (i i' : inline) : Prop := NI i = NI' i'.
Definition Rdc (i i' : dcontent) : Prop := NDC i = NDC' i'.
Definition Rdec (d d' : decorated) : Prop := fst d = fst d' /\ map (n_loc sh NDC) (snd d) = map (n_loc idr NDC') (snd d').
Lemma RL_loc {A} (f f' : A -> A) x x' : RL (fun a b => f a = f' b) x x' -> n_loc sh f x = n_loc idr f' x'.
Proof. intros (H & _ & H2). unfold n_loc. now rewrite H, H2. Qed.
Lemma F2_map {A B} (R : A -> A -> Prop) (f f' : A -> B) l l' : Forall2 R l l' -> (forall a a', R a a' -> f a = f' a') -> map f l = map f' l'.
Proof. intros H W. induction H; simpl; [reflexivity|]. f_equal; auto. Qed.

Lemma simp_non_text_ dec dec' : simp (RL Rdec) dec dec' -> simp (RL Rin) (non_text_ up dp dec) (non_text_ up dp dec').
Proof.
  intro D. apply simp_alt. repeat constructor.
  - eapply simp_lmap; [eapply simp_preceded; [apply simp_peek, simp_pchar; nn|exact simp_comment]|]. intros; subst; reflexivity.
  - eapply simp_lmap; [eapply simp_preceded; [apply simp_peek, simp_pchar; nn|exact simp_code]|]. intros; subst; reflexivity.
  - eapply simp_lmap; [eapply simp_preceded; [apply simp_peek, simp_pchar; nn|exact simp_math]|]. intros; subst; reflexivity.
  - eapply simp_lmap; [eapply simp_preceded; [apply simp_peek, simp_pchar; nn|exact simp_tags]|]. intros; subst; reflexivity.
  - eapply simp_lmap; [eapply simp_preceded; [apply simp_peek, simp_palt; apply simp_pchar; nn|exact simp_link]|]. intros; subst; reflexivity.
  - eapply simp_lmap; [eapply simp_preceded; [apply simp_peek, simp_alt; repeat constructor; apply simp_pchar; nn|exact D]|].
    intros a a' [H1 H2]. unfold Rin. simpl. now rewrite H1, H2.
  - eapply simp_lmap; [exact simp_keyword|]. intros; subst; reflexivity.
  - eapply simp_lmap; [exact simp_backtrack|]. intros; subst; reflexivity.
Qed.

Lemma rel_text_loop (Q : inline -> inline -> Prop) nt nt' : simp (RL Q) nt nt' ->
  forall f f' ti ti' len, sim ti ti' -> rel eq (text_loop f nt ti len) (text_loop f' nt' ti' len).
Proof.
  intros NT. induction f as [|f IH]; intros f' ti ti' len Ht; [exact I|]. destruct f' as [|f'].
  { destruct (text_loop (S f) nt ti len); exact I. }
  assert (STOP : rel eq (Ok ti len) (Ok ti' len)) by (apply rel_ok; auto).
  cbn [text_loop]. rewrite (sim_rem _ _ Ht). destruct (remaining ti) as [|b r]; [exact STOP|]. destruct (is_nl b || _); [exact STOP|].
  pose proof (NT _ _ Ht) as X. destruct (nt ti) as [t x| | |], (nt' ti') as [t' x'| | |]; simpl in X; try contradiction; try exact I.
  - destruct X as (_ & _ & X1 & X2). rewrite X2. pose proof Ht as (F1 & F2 & G1 & G2 & S1 & S2 & D2). rewrite S1.
    cbn [sh shift r_off]. change (length pre + r_off (l_reg x)) with (pos (r_off (l_reg x))). rewrite pos_ltb by lia.
    destruct (r_off (l_reg x) <? sp_start ti) eqn:C; [|exact STOP].
    replace (pos (sp_start ti) - pos (r_off (l_reg x))) with (sp_start ti - r_off (l_reg x)) by (unfold pos; lia).
    destruct (len <? _); [exact I|]. now apply rel_ok.
  - destruct (r_off _ <? _); [|exact I]. destruct (_ <? _); exact I.
  - apply IH. now apply sim_adv.
  - destruct (text_loop f nt (advance_start_by 1 ti) (len + 1)); exact I.
Qed.
Lemma simp_text_ Q nt nt' : simp (RL Q) nt nt' -> simp (RL eq) (text_ nt) (text_ nt').
Proof.
  intro NT. apply simp_located. intros s s' Hs. eapply rel_bind; [eapply rel_text_loop; eauto; rewrite ?(sim_len _ _ Hs); exact Hs|].
  intros t t' l l' Ht <-. destruct (0 <? l); [|exact I]. apply rel_ok; [now apply sim_adv|]. symmetry. apply sim_rem. now apply wl_sim.
Qed.
Lemma simp_contents_ dec dec' : simp (RL Rdec) dec dec' ->
  simp (fun l l' => map (n_loc sh NDC) l = map (n_loc idr NDC') l') (decorated_text_contents_ up dp dec) (decorated_text_contents_ up dp dec').
Proof.
  intro D. eapply simp_weaken with (R := Forall2 (RL Rdc)).
  - apply simp_many1, simp_alt. repeat constructor.
    + eapply simp_lmap; [exact simp_link|]. intros; subst; reflexivity.
    + eapply simp_lmap; [exact simp_keyword|]. intros; subst; reflexivity.
    + eapply simp_lmap; [exact D|]. intros a a' [H1 H2]. unfold Rdc. simpl. now rewrite H1, H2.
    + eapply simp_lmap; [eapply simp_text_, simp_non_text_, D|]. intros; subst; reflexivity.
  - intros l l' H. eapply F2_map; [exact H|]. intros. now apply RL_loc.
Qed.
Lemma simp_deco_text kd delim dec dec' : clean delim -> delim <> [] -> simp (RL Rdec) dec dec' ->
  simp Rdec (deco_text up dp kd delim dec) (deco_text up dp kd delim dec').
Proof.
  intros C N D. eapply simp_pmap.
  - apply simp_map_parser; [now apply simp_nc|]. apply simp_L, simp_deeper, simp_contents_, D.
  - intros. split; auto.
Qed.
Lemma simp_decorated_text f : forall f', simp (RL Rdec) (decorated_text up dp f) (decorated_text up dp f').
Proof.
  induction f as [|f IH]; intros f' s s' Hs; [exact I|]. destruct f' as [|f'].
  { simpl. destruct (located_p _ s); exact I. }
  cbn [decorated_text]. refine (simp_located Rdec _ _ _ _ _ Hs). apply simp_alt.
  repeat constructor; (apply simp_deco_text; [cl|nn|apply IH]).
Qed.
Lemma simp_decorated : simp (RL Rdec) (p_decorated up dp) (p_decorated up dp).
Proof. intros s s' Hs. apply simp_decorated_text. exact Hs. Qed.
Lemma simp_inline : simp (RL Rin) (inline_element up dp) (inline_element up dp).
Proof.
  apply simp_alt. repeat constructor.
  - eapply simp_lmap; [exact simp_comment|]. intros; subst; reflexivity.
  - eapply simp_lmap; [exact simp_math|]. intros; subst; reflexivity.
  - eapply simp_lmap; [exact simp_code|]. intros; subst; reflexivity.
  - eapply simp_lmap; [exact simp_tags|]. intros; subst; reflexivity.
  - eapply simp_lmap; [exact simp_link|]. intros; subst; reflexivity.
  - eapply simp_lmap; [exact simp_decorated|]. intros a a' [H1 H2]. unfold Rin. simpl. now rewrite H1, H2.
  - eapply simp_lmap; [exact simp_keyword|]. intros; subst; reflexivity.
  - eapply simp_lmap; [eapply simp_text_, simp_non_text_, simp_decorated|]. intros; subst; reflexivity.
Qed.
Notation NC := (n_cont (fun u => u) sh).
Notation NC' := (n_cont (fun u => u) idr).
Definition Rc (c c' : container) : Prop := NC c = NC' c'.
Lemma simp_container : simp (RL Rc) (inline_element_container up dp) (inline_element_container up dp).
Proof.
  apply simp_located. eapply simp_weaken; [apply simp_many1, simp_deeper, simp_inline|].
  intros l l' H. eapply F2_map; [exact H|]. intros. now apply RL_loc.
Qed.
Lemma simp_inner : simp Rc (container_inner up dp) (container_inner up dp).
Proof. eapply simp_pmap; [exact simp_container|]. now intros a a' (H & _). Qed.
End Move.
