(** The inline parsers on a text with and without a newline at its end. *)
From Verif Require Import Base ModelAst ModelTable ModelLink ModelInline ModelBlock ModelSpan ModelComb
  SpecDoc SpecTree SpecSpan SpecEq ProofBase ProofBytes ProofSpan ProofPrim ProofLines1 ProofEnd2.
From Verif Require ProofLines3.

Section End.
Context {E : tailed}.
Notation simL := (sim false).
Notation len := (length bod).
Variable up : str -> option uri.
Variable dp : str -> option date.

Ltac cl := split; vm_compute; intuition discriminate.
Ltac nn := discriminate.

Lemma F2_eq {A} (l l' : list A) : Forall2 eq l l' -> l = l'.
Proof. induction 1; congruence. Qed.
Lemma F2_pair {A B} (l l' : list (A * B)) : Forall2 (pair_rel eq eq) l l' -> l = l'.
Proof. induction 1 as [|[a b] [a' b'] l l' [H1 H2] _ IH]; simpl in *; congruence. Qed.
Lemma simp_cow p : simp simL p p -> simp eq (map_parser p cow_str) (map_parser p cow_str).
Proof. intro H. apply simp_map_parser; auto. apply simpL_cow. Qed.
Lemma simp_at {A} (R : A -> A -> Prop) p p' k s s' : simp R p p' -> sim k s s' -> rel k R (p s) (p' s').
Proof. intros H Hs. now apply H. Qed.

Ltac step L := eapply rel_bind; [apply (simp_at _ _ _ _ _ _ L); eassumption|]; intros.
Ltac fin := apply rel_ok; [eassumption|].

(** * Comments *)

Lemma simp_line_comment : simp (RL eq) line_comment line_comment.
Proof.
  apply simp_located; [stk|stk|]. intros k s s' Hs. step (simp_tag pct2 ltac:(cl)).
  step (simp_cow _ simp_to_eol). subst. fin. reflexivity.
Qed.
Lemma keep_to_eol : keep (map_parser take_until_end_of_line_or_input cow_str).
Proof.
  intros s N. unfold map_parser, take_until_end_of_line_or_input. rewrite N. unfold ok_split, cow_str. cbn [bind keepr]. now apply adv_nil.
Qed.
Lemma stuck_terminated2 {A B} (p : parser A) (q : parser B) : keep p -> stuck q -> stuck (terminated p q).
Proof. intros P Q. unfold terminated. apply stuck_keep; [exact P|]. intro a. now apply stuck_bind. Qed.
Lemma simpL_comment_lines : simpL eq comment_lines comment_lines.
Proof.
  intros s s' Hs. unfold comment_lines. eapply rel_bind.
  - refine (rel_many0 eq false _ _ _ _ _ _ _ _ Hs).
    + apply stuck_terminated2; [exact keep_to_eol|apply stuck_line_ending].
    + intros t t' Ht. unfold terminated. eapply rel_bind; [apply (simp_cow _ simp_to_eol); exact Ht|]. intros t1 t1' a a' H1 Ha.
      eapply rel_bind; [apply simpL_line_ending; exact H1|]. intros. now apply rel_ok.
  - intros t t' l l' Ht Hl. apply F2_eq in Hl. subst l'. unfold rest_len. cbn [bind]. rewrite (simL_len _ _ Ht).
    destruct (0 <? remaining_len t); [|apply rel_ok; auto].
    unfold map_parser, rest, cow_str. cbn [bind]. rewrite (simL_len _ _ Ht), (simL_rem _ _ Ht). apply rel_ok; auto. apply sim_adv; auto.
    rewrite <- remaining_len_eq by apply (sim_ok _ _ _ Ht). lia.
Qed.
Lemma simp_multi_line_comment : simp (RL eq) multi_line_comment multi_line_comment.
Proof.
  apply simp_located; [stk|stk|]. intros k s s' Hs. step (simp_tag (bs "%%+") ltac:(cl)).
  step (simp_map_parser eq _ _ _ _ (simp_take_until (bs "+%%") ltac:(cl) ltac:(nn)) simpL_comment_lines).
  step (simp_tag (bs "+%%") ltac:(cl)). subst. fin. reflexivity.
Qed.
Lemma stuck_comment : stuck p_comment.
Proof. unfold p_comment, multi_line_comment, line_comment. stk. Qed.
Lemma simp_comment : simp (RL eq) p_comment p_comment.
Proof. apply simp_palt; [exact simp_multi_line_comment|exact simp_line_comment]. Qed.

(** * Code, math, tags *)

Lemma simp_nc L R : clean L -> clean R -> R <> [] ->
  simp simL (not_contains pct2 (surround_in_line1 L R)) (not_contains pct2 (surround_in_line1 L R)).
Proof. intros. apply simp_not_contains, simp_surround; auto. Qed.
Lemma simp_code : simp (RL eq) code_inline code_inline.
Proof. apply simp_located; [stk|stk|]; apply simp_cow, simp_nc; [cl|cl|nn]. Qed.
Lemma simp_tlu1 p : clean p -> p <> [] -> length p <= 2 -> simp simL (take_line_until1 p) (take_line_until1 p).
Proof. intros. apply simp_tlu1_, simp_tlu; auto. Qed.
Lemma simp_math : simp (RL eq) math_inline math_inline.
Proof.
  apply simp_located; [stk|stk|]; apply simp_cow. eapply simp_delimited; [apply simp_pchar; nn| |apply simp_pchar; nn].
  apply simp_not_contains, simp_tlu1; [cl|nn|vm_compute; lia].
Qed.
Lemma simp_tag_content : simp eq tag_content tag_content.
Proof. apply simp_cow. apply simp_tlu1_. apply simp_tlu3; [cl|nn|cl|nn|cl|nn]. Qed.
Lemma stuck_tagc : stuck (terminated tag_content (pchar x3a)).
Proof. unfold tag_content. stk. Qed.
Lemma simp_tags : simp (RL eq) tags tags.
Proof.
  apply simp_located; [stk|stk|]. apply simp_map_parser; [exact simp_whole_word|]. apply simp_L. intros k s s' Hs.
  step (simp_pchar x3a ltac:(nn) ltac:(nn)).
  step (simp_many1 eq _ _ stuck_tagc (simp_terminated _ _ _ _ _ _ simp_tag_content (simp_pchar x3a ltac:(nn) ltac:(nn)))).
  fin. now apply F2_eq.
Qed.

(** * Links *)

Lemma word_nl r : good r -> word_len (r ++ [b_nl]) = word_len r.
Proof.
  induction r as [|b r IH]; intro G; [reflexivity|]. cbn [app word_len].
  assert (X : starts_with nl_str (r ++ [b_nl]) = starts_with nl_str r \/ r = []) by (destruct r; [now right|left; reflexivity]).
  assert (G2 : good r) by (intros x ->; apply (G (b :: x)); reflexivity).
  destruct X as [->| ->]; [now rewrite IH|].
  assert (B : beqb b b_cr = false). { destruct (beqb_spec b b_cr) as [->|]; auto. exfalso. now apply (G []). }
  rewrite B. reflexivity.
Qed.
Lemma simp_word : simp simL (recognize (many1 nonspace)) (recognize (many1 nonspace)).
Proof.
  apply simp_pick with (f := fun r => if word_len r =? 0 then None else Some (word_len r)).
  - intros r n. destruct (_ =? 0); [discriminate|]. intros [= <-]. apply word_len_le.
  - intros r G. now rewrite word_nl.
  - intros s O. rewrite ProofLines3.word_step by auto. destruct (_ =? 0); reflexivity.
Qed.
Lemma stuck_word : stuck (recognize (many1 nonspace)).
Proof.
  apply stuck_recognize1, stuck_many1. apply stuck_pair2.
  - apply keep_pnot. unfold single_multispace, crlf. stk.
  - intros s N. unfold anychar. rewrite N. now left.
Qed.
Lemma stuck_uri_ref : stuck (uri_ref up).
Proof. apply stuck_map_opt, stuck_word. Qed.
Lemma simp_uri_ref : simp eq (uri_ref up) (uri_ref up).
Proof.
  unfold uri_ref. fold nonspace. eapply simp_map_opt; [exact simp_word|]. intros a a' H. rewrite (simL_rem _ _ H).
  destruct (up (remaining a)); reflexivity.
Qed.
Lemma simp_raw : simp (RL eq) (raw_link up) (raw_link up).
Proof.
  apply simp_located; [apply stuck_bind, stuck_verify, stuck_uri_ref|apply stuck_bind, stuck_verify, stuck_uri_ref|]. intros k s s' Hs.
  step (simp_verify eq _ _ is_raw_scheme is_raw_scheme simp_uri_ref ltac:(congruence)). subst. fin. reflexivity.
Qed.
Lemma simp_link_uri_ref : simp eq (link_uri_ref up) (link_uri_ref up).
Proof.
  intros k s s' Hs. unfold link_uri_ref.
  step (simp_tlu1_ _ (simp_tlu3 (bs "|") (bs "]]") (bs "}}") ltac:(cl) ltac:(nn) ltac:(cl) ltac:(nn) ltac:(cl) ltac:(nn))).
  rewrite (simL_rem _ _ H0). destruct (up (remaining a)); [now apply rel_ok|]. destruct (up (encode_uri (remaining a))); [now apply rel_ok|exact I].
Qed.
Lemma opt_refl {A} (o : option A) : opt_rel eq o o.
Proof. destruct o; reflexivity. Qed.
Lemma opt_eq {A} (o o' : option A) : opt_rel eq o o' -> o = o'.
Proof. destruct o, o'; simpl; congruence || tauto. Qed.
Lemma simp_link_anchor : simp eq link_anchor link_anchor.
Proof.
  eapply simp_map_opt; [apply (simp_tlu (bs "|")); [cl|nn|vm_compute; lia]|]. intros a a' H. rewrite (simL_rem _ _ H). apply opt_refl.
Qed.
Lemma simp_link_properties : simp eq link_properties link_properties.
Proof.
  intros k s s' Hs. unfold link_properties. step (simp_tag (bs "|") ltac:(cl)).
  refine (simp_pmap _ eq _ _ _ _ _ _ _ _ _ H).
  - eapply simp_sep1; [apply stuck_while1|exact simp_space1|]. eapply simp_separated_pair.
    + apply simp_cow, simp_tlu1; [cl|nn|vm_compute; lia].
    + apply (simp_tag (bs "=")). cl.
    + apply simp_cow. eapply simp_delimited; [apply simp_tag; cl| |apply simp_tag; cl]. apply simp_tlu; [cl|nn|vm_compute; lia].
  - intros l l' Hl. apply F2_pair in Hl. now subst.
Qed.
Lemma simp_link_description_ tr tr' : simp (RL eq) tr tr' -> simp eq (link_description_ tr) (link_description_ tr').
Proof.
  intros T k s s' Hs. unfold link_description_. step (simp_tag (bs "|") ltac:(cl)).
  refine (simp_map_parser eq _ _ _ _ (simp_tlu (bs "|") ltac:(cl) ltac:(nn) ltac:(vm_compute; lia)) _ _ _ _ H).
  intros t t' Ht. apply rel_palt.
  - refine (simp_pmap _ eq _ _ _ _ T _ _ _ _ Ht). intros x x' (Hx & _). now rewrite Hx.
  - unfold pmap, rest. cbn [bind]. rewrite (simL_len _ _ Ht), (simL_rem _ _ Ht).
    apply rel_ok; auto. apply sim_adv; auto.
    rewrite <- remaining_len_eq by apply (sim_ok _ _ _ Ht). lia.
Qed.
Lemma simp_link_data_ tr tr' : simp (RL eq) tr tr' -> simp eq (link_data_ up tr) (link_data_ up tr').
Proof.
  intros T k s s' Hs. unfold link_data_. step simp_link_uri_ref. step (simp_opt eq _ _ (simp_link_description_ _ _ T)).
  step (simp_opt eq _ _ simp_link_properties). fin. apply opt_eq in H2, H4. congruence.
Qed.
Lemma simp_transclusion_link f : forall f', simp (RL eq) (transclusion_link up f) (transclusion_link up f').
Proof.
  induction f as [|f IH]; intros f' k s s' Hs; [exact I|]. destruct f' as [|f'].
  { simpl. destruct (located_p _ s); exact I. }
  cbn [transclusion_link]. refine (simp_located eq _ _ _ _ _ _ _ _ Hs); [stk|stk|].
  apply simp_map_parser; [apply simp_nc; [cl|cl|nn]|]. apply simp_L. intros k2 t t' Ht. step (simp_link_data_ _ _ (IH f')). fin. congruence.
Qed.
Lemma simp_transclusion : simp (RL eq) (p_transclusion up) (p_transclusion up).
Proof. intros k s s' Hs. apply simp_transclusion_link. exact Hs. Qed.
Lemma simp_bracket {A} (R : A -> A -> Prop) p p' : simp R p p' -> simp (RL R) (bracket_link p) (bracket_link p').
Proof. intro H. apply simp_located; [stk|stk|]; apply simp_map_parser; [apply simp_nc; [cl|cl|nn]|]. now apply simp_L. Qed.
Lemma simp_description : simp eq (link_description up) (link_description up).
Proof. apply simp_link_description_, simp_transclusion. Qed.
Lemma simp_wiki : simp (RL eq) (wiki_link up) (wiki_link up).
Proof.
  apply simp_bracket. intros k s s' Hs. step (simp_link_data_ _ _ simp_transclusion). fin. congruence.
Qed.
Lemma simp_diary : simp (RL eq) (diary_link up dp) (diary_link up dp).
Proof.
  apply simp_bracket. intros k s s' Hs. step (simp_tag (bs "diary:") ltac:(cl)).
  eapply rel_bind with (R := eq).
  - refine (simp_map_opt simL eq _ _ _ _ _ _ _ _ _ H).
    + apply simp_tlu1_, simp_tlu2; [cl|nn|cl|nn].
    + intros x x' Hx. rewrite (simL_rem _ _ Hx). apply opt_refl.
  - intros. step (simp_opt eq _ _ simp_link_anchor). step (simp_opt eq _ _ simp_description). apply opt_eq in H4, H6. subst.
    destruct (new_diary_link _ _ _ _); [now apply rel_ok|exact I].
Qed.
Lemma simp_index : simp eq indexed_link_index indexed_link_index.
Proof.
  eapply simp_map_opt.
  - eapply simp_delimited; [apply simp_tag; cl| |apply simp_tag; cl]. apply simp_tlu1; [cl|nn|vm_compute; lia].
  - intros x x' Hx. rewrite (simL_rem _ _ Hx). apply opt_refl.
Qed.
Lemma simp_indexed : simp (RL eq) (indexed_interwiki_link up) (indexed_interwiki_link up).
Proof.
  apply simp_bracket. intros k s s' Hs. step simp_index. step simp_link_uri_ref. step (simp_opt eq _ _ simp_description).
  fin. apply opt_eq in H4. congruence.
Qed.
Lemma simp_named : simp (RL eq) (named_interwiki_link up) (named_interwiki_link up).
Proof.
  apply simp_bracket. intros k s s' Hs.
  assert (L : simp eq named_link_name named_link_name).
  { apply simp_cow. eapply simp_delimited; [apply simp_tag; cl| |apply simp_tag; cl]. apply simp_tlu1; [cl|nn|vm_compute; lia]. }
  step L. step simp_link_uri_ref. step (simp_opt eq _ _ simp_description).
  fin. apply opt_eq in H4. congruence.
Qed.
Lemma simp_link : simp (RL eq) (p_link up dp) (p_link up dp).
Proof.
  apply simp_alt. repeat constructor;
    [exact simp_diary|exact simp_indexed|exact simp_named|exact simp_wiki|exact simp_raw|exact simp_transclusion].
Qed.

Lemma stuck_transclusion_link f : stuck (transclusion_link up f).
Proof. destruct f; [intros s N; now right|]. cbn [transclusion_link]. intros s N. revert s N. change (stuck (transclusion_link up (S f))). cbn [transclusion_link]. apply stuck_located, stuck_map_parser, stuck_not_contains, stuck_surround. nn. Qed.
Lemma stuck_link : stuck (p_link up dp).
Proof.
  unfold p_link, diary_link, indexed_interwiki_link, named_interwiki_link, wiki_link, bracket_link.
  apply stuck_alt; repeat (apply Forall_cons; [first [apply stuck_located, stuck_bind, stuck_verify, stuck_uri_ref|intros s N; apply stuck_transclusion_link; exact N|stk]|]); apply Forall_nil.
Qed.

(** * Text *)

Lemma simp_keyword : simp (RL eq) p_keyword p_keyword.
Proof. apply simp_located; [stk|stk|]; apply simp_alt. repeat constructor; eapply simp_value, simp_tag; cl. Qed.
Lemma stuck_keyword : stuck p_keyword.
Proof. unfold p_keyword. stk. Qed.
Lemma simp_backtrack : simp (RL eq) (raw_link_backtrack up) (raw_link_backtrack up).
Proof.
  intros k s s' Hs. unfold raw_link_backtrack, preceded, peek. pose proof (simp_pchar x3a ltac:(nn) ltac:(nn) k s s' Hs) as X.
  destruct (pchar x3a s) as [t a| | |] eqn:P, (pchar x3a s') as [t' a'| | |] eqn:P'; cbn [bind rel] in *; try contradiction; try exact I.
  2: { now destruct (raw_link _ _). }
  assert (N : remaining s <> []) by (intro N; destruct (stuck_pchar x3a s N); congruence).
  destruct (sim_here _ _ _ Hs N) as (A1 & A2 & A3). rewrite A3. apply simp_raw.
  set (n := count_while _ _). assert (L : n <= sp_start s).
  { unfold n. etransitivity; [apply count_while_le|]. rewrite rev_length. unfold consumed. rewrite firstn_length. lia. }
  unfold backtrack_start_by. rewrite A1. replace (sp_start s <? n) with false by (symmetry; apply Nat.ltb_ge; lia).
  destruct Hs as (E1 & E2 & H1 & H2 & D & C). unfold sim. cbn [sp_inner sp_start sp_end sp_depth]. repeat split; auto; [lia|].
  right. destruct C as [(C1 & C2 & _)|[_ C]]; [lia|]. split; auto.
Qed.

Notation NI := (n_inline (fun u => u) nowhere).
Notation NDC := (n_dc (fun u => u) nowhere).
Definition Rin (i i' : inline) : Prop := NI i = NI i'.
Definition Rdc (i i' : dcontent) : Prop := NDC i = NDC i'.
Definition Rdec (d d' : decorated) : Prop := fst d = fst d' /\ map (n_loc nowhere NDC) (snd d) = map (n_loc nowhere NDC) (snd d').
Lemma RL_loc {A} (f f' : A -> A) x x' : RL (fun a b => f a = f' b) x x' -> n_loc nowhere f x = n_loc nowhere f' x'.
Proof. intros (H & _). unfold n_loc. now rewrite H. Qed.
Lemma F2_map {A B} (R : A -> A -> Prop) (f f' : A -> B) l l' : Forall2 R l l' -> (forall a a', R a a' -> f a = f' a') -> map f l = map f' l'.
Proof. intros H W. induction H; simpl; [reflexivity|]. f_equal; auto. Qed.

Lemma simp_non_text_ dec dec' : simp (RL Rdec) dec dec' -> simp (RL Rin) (non_text_ up dp dec) (non_text_ up dp dec').
Proof.
  intro D. apply simp_alt. repeat constructor.
  - eapply simp_lmap; [eapply simp_preceded; [apply simp_peek, simp_pchar; nn|exact simp_comment]|]. intros; subst; reflexivity.
  - eapply simp_lmap; [eapply simp_preceded; [apply simp_peek, simp_pchar; nn|exact simp_code]|]. intros; subst; reflexivity.
  - eapply simp_lmap; [eapply simp_preceded; [apply simp_peek, simp_pchar; nn|exact simp_math]|]. intros; subst; reflexivity.
  - eapply simp_lmap; [eapply simp_preceded; [apply simp_peek, simp_pchar; nn|exact simp_tags]|]. intros; subst; reflexivity.
  - eapply simp_lmap; [eapply simp_preceded; [apply simp_peek, simp_palt; apply simp_pchar; nn|exact simp_link]|]. intros; subst; reflexivity.
  - eapply simp_lmap; [eapply simp_preceded; [apply simp_peek, simp_alt; repeat constructor; apply simp_pchar; nn|exact D]|].
    intros a a' [H1 H2]. unfold Rin. simpl. now rewrite H1, H2.
  - eapply simp_lmap; [exact simp_keyword|]. intros; subst; reflexivity.
  - eapply simp_lmap; [exact simp_backtrack|]. intros; subst; reflexivity.
Qed.

Lemma rel_text_loop (Q : inline -> inline -> Prop) nt nt' : simp (RL Q) nt nt' ->
  forall f f' k ti ti' l, sim k ti ti' ->
  match text_loop f nt ti l, text_loop f' nt' ti' l with
  | Ok _ n, Ok _ n' => n' = n /\ n <= l + length (remaining ti)
  | OutOfFuel, _ | _, OutOfFuel | Err, Err | Panic, Panic => True
  | _, _ => False
  end.
Proof.
  intros NT. induction f as [|f IH]; intros f' k ti ti' l Ht; [exact I|]. destruct f' as [|f'].
  { now destruct (text_loop (S f) nt ti l). }
  cbn [text_loop]. pose proof (sim_rem _ _ _ Ht) as Q1. pose proof (NT _ _ _ Ht) as X.
  destruct (remaining ti) as [|b r] eqn:B.
  { destruct Q1 as [->|(_ & _ & -> & _)]; [split; lia|]. cbn [app]. replace (is_nl b_nl) with true by reflexivity. cbn [orb]. split; lia. }
  assert (T : exists r', remaining ti' = b :: r' /\ (is_nl b || beqb b b_cr && starts_with nl_str r') = (is_nl b || beqb b b_cr && starts_with nl_str r)).
  { destruct Q1 as [->|(_ & _ & -> & G & _)]; [eauto|]. exists (r ++ [b_nl]). split; [reflexivity|].
    destruct r as [|c r]; [|reflexivity]. destruct (beqb_spec b b_cr) as [->|]; auto. exfalso. now apply (G []). }
  destruct T as (r' & -> & ->). destruct (is_nl b || _); [split; lia|].
  assert (N : remaining ti <> []) by (rewrite B; nn). destruct (sim_here _ _ _ Ht N) as (A1 & A2 & _).
  pose proof Ht as (_ & _ & _ & A3 & _). rewrite A1.
  assert (D : forall x x', RL Q x x' -> (r_off (l_reg x') <? sp_start ti) = (r_off (l_reg x) <? sp_start ti) /\
                (r_off (l_reg x) < sp_start ti -> r_off (l_reg x') = r_off (l_reg x))).
  { intros x x' (_ & [->|[-> ->]]); [auto|]. split; [|lia]. destruct (Nat.ltb_spec (S len) (sp_start ti)), (Nat.ltb_spec len (sp_start ti)); lia. }
  destruct (nt ti) as [t x| | |], (nt' ti') as [t' x'| | |]; simpl in X; try contradiction; try exact I.
  - destruct X as (_ & X). destruct (D _ _ X) as [-> D2]. destruct (Nat.ltb_spec (r_off (l_reg x)) (sp_start ti)); [|split; lia].
    rewrite D2 by auto. destruct (_ <? _); [exact I|split; lia].
  - destruct (_ <? _); [|exact I]. destruct (_ <? _); exact I.
  - assert (Z : sim k (advance_start_by 1 ti) (advance_start_by 1 ti')) by (apply sim_adv; [exact Ht|rewrite B; cbn [length]; lia]).
    specialize (IH f' k _ _ (l + 1) Z). destruct (text_loop f nt (advance_start_by 1 ti) (l + 1)), (text_loop f' nt' (advance_start_by 1 ti') (l + 1)); auto.
    destruct IH as [-> IH]. split; auto.
    destruct (sim_ok _ _ _ Ht) as [O1 _]. destruct (sim_ok _ _ _ Z) as [O2 _]. rewrite <- remaining_len_eq in IH by exact O2.
    assert (Y : length (b :: r) = remaining_len ti) by (rewrite <- B; symmetry; now apply remaining_len_eq).
    assert (W : remaining_len (advance_start_by 1 ti) = remaining_len ti - 1).
    { destruct O1. unfold remaining_len, advance_start_by. cbn [sp_start sp_end].
      destruct (Nat.ltb_spec (sp_end ti) (sp_start ti + 1)); cbn [sp_start sp_end];
      repeat match goal with |- context [?x <=? ?y] => destruct (Nat.leb_spec x y) end; lia. }
    cbn [length] in *. lia.
  - now destruct (text_loop f nt (advance_start_by 1 ti) (l + 1)).
Qed.
Lemma stuck_text_ nt : stuck (text_ nt).
Proof.
  apply stuck_located. intros s N. cbn [text_loop]. rewrite N. now left.
Qed.
Lemma rem_wl n s : span_ok s -> n <= length (remaining s) -> remaining (with_length n s) = firstn n (remaining s).
Proof.
  intros O L. pose proof (remaining_len_eq s O) as Q. unfold with_length.
  destruct (Nat.ltb_spec n (remaining_len s)); [|symmetry; apply firstn_all2; lia]. destruct O as [O1 O2].
  assert (X : remaining_len s = sp_end s - sp_start s) by (unfold remaining_len; destruct (Nat.leb_spec (sp_start s) (sp_end s)); lia).
  unfold remaining, slice. cbn [sp_inner sp_start sp_end]. rewrite firstn_firstn. f_equal. lia.
Qed.
Lemma simp_text_ Q nt nt' : simp (RL Q) nt nt' -> simp (RL eq) (text_ nt) (text_ nt').
Proof.
  intro NT. assert (X : forall nt : parser (located inline), stuck (fun s => do (_, l) <- text_loop (S (remaining_len s)) nt s 0;; if 0 <? l then Ok (advance_start_by l s) (remaining (with_length l s)) else Err)).
  { intros n s N. cbn [text_loop]. rewrite N. now left. }
  apply simp_located; [apply X|apply X|]. intros k s s' Hs.
  pose proof (rel_text_loop Q nt nt' NT (S (remaining_len s)) (S (remaining_len s')) k s s' 0 Hs) as H.
  destruct (text_loop _ nt s 0) as [t n| | |], (text_loop _ nt' s' 0) as [t' n'| | |]; cbn [ModelComb.bind]; try contradiction; try exact I.
  2: { destruct (0 <? n); exact I. }
  destruct H as [-> L]. destruct (0 <? n); [|exact I]. apply rel_ok; [now apply sim_adv|]. destruct (sim_ok _ _ _ Hs) as [O1 O2].
  destruct (sim_rem _ _ _ Hs) as [R|(_ & _ & R & _)].
  - rewrite !rem_wl; auto; rewrite ?R; auto.
  - rewrite !rem_wl; auto; rewrite ?R, ?app_length; [|lia]. rewrite firstn_app. replace (n - length (remaining s)) with 0 by lia. now rewrite app_nil_r.
Qed.
Lemma stuck_contents dec : stuck dec -> stuck (alt [ pmap (p_link up dp) (lmap DCLink); pmap p_keyword (lmap DCKeyword);
               pmap dec (lmap (fun d => DCDeco (fst d) (snd d))); pmap (text_ (non_text_ up dp dec)) (lmap DCText) ]).
Proof.
  intro D. apply stuck_alt. repeat (apply Forall_cons; [apply stuck_pmap|]); [apply stuck_link|apply stuck_keyword|exact D|apply stuck_text_|apply Forall_nil].
Qed.
Lemma simp_contents_ dec dec' : stuck dec -> simp (RL Rdec) dec dec' ->
  simp (fun l l' => map (n_loc nowhere NDC) l = map (n_loc nowhere NDC) l') (decorated_text_contents_ up dp dec) (decorated_text_contents_ up dp dec').
Proof.
  intros DS D. eapply simp_weaken with (R := Forall2 (RL Rdc)).
  - apply simp_many1; [apply stuck_contents, DS|]; apply simp_alt. repeat constructor.
    + eapply simp_lmap; [exact simp_link|]. intros; subst; reflexivity.
    + eapply simp_lmap; [exact simp_keyword|]. intros; subst; reflexivity.
    + eapply simp_lmap; [exact D|]. intros a a' [H1 H2]. unfold Rdc. simpl. now rewrite H1, H2.
    + eapply simp_lmap; [eapply simp_text_, simp_non_text_, D|]. intros; subst; reflexivity.
  - intros l l' H. eapply F2_map; [exact H|]. intros. now apply RL_loc.
Qed.
Lemma simp_deco_text kd delim dec dec' : clean delim -> delim <> [] -> stuck dec -> simp (RL Rdec) dec dec' ->
  simp Rdec (deco_text up dp kd delim dec) (deco_text up dp kd delim dec').
Proof.
  intros C N DS D. eapply simp_pmap.
  - apply simp_map_parser; [now apply simp_nc|]. apply simp_L, simp_deeper, simp_contents_; auto.
  - intros. split; auto.
Qed.
Lemma stuck_deco_alt dec : stuck (alt [ deco_text up dp Bold (bs "*") dec; deco_text up dp Italic (bs "_") dec; deco_text up dp Strikeout (bs "~~") dec;
                       deco_text up dp Superscript (bs "^") dec; deco_text up dp Subscript (bs ",,") dec ]).
Proof. unfold deco_text. stk. Qed.
Lemma stuck_decorated_text f : stuck (decorated_text up dp f).
Proof. destruct f; intros s N; [now right|]. cbn [decorated_text]. revert s N. apply stuck_located, stuck_deco_alt. Qed.
Lemma simp_decorated_text f : forall f', simp (RL Rdec) (decorated_text up dp f) (decorated_text up dp f').
Proof.
  induction f as [|f IH]; intros f' k s s' Hs; [exact I|]. destruct f' as [|f'].
  { simpl. destruct (located_p _ s); exact I. }
  cbn [decorated_text]. refine (simp_located Rdec _ _ (stuck_deco_alt _) (stuck_deco_alt _) _ _ _ _ Hs). apply simp_alt.
  repeat constructor; (apply simp_deco_text; [cl|nn|apply stuck_decorated_text|apply IH]).
Qed.
Lemma simp_decorated : simp (RL Rdec) (p_decorated up dp) (p_decorated up dp).
Proof. intros k s s' Hs. apply simp_decorated_text. exact Hs. Qed.
Lemma simp_inline : simp (RL Rin) (inline_element up dp) (inline_element up dp).
Proof.
  apply simp_alt. repeat constructor.
  - eapply simp_lmap; [exact simp_comment|]. intros; subst; reflexivity.
  - eapply simp_lmap; [exact simp_math|]. intros; subst; reflexivity.
  - eapply simp_lmap; [exact simp_code|]. intros; subst; reflexivity.
  - eapply simp_lmap; [exact simp_tags|]. intros; subst; reflexivity.
  - eapply simp_lmap; [exact simp_link|]. intros; subst; reflexivity.
  - eapply simp_lmap; [exact simp_decorated|]. intros a a' [H1 H2]. unfold Rin. simpl. now rewrite H1, H2.
  - eapply simp_lmap; [exact simp_keyword|]. intros; subst; reflexivity.
  - eapply simp_lmap; [eapply simp_text_, simp_non_text_, simp_decorated|]. intros; subst; reflexivity.
Qed.
Lemma stuck_inline : stuck (inline_element up dp).
Proof.
  apply stuck_alt. repeat (apply Forall_cons; [apply stuck_pmap|]); [apply stuck_comment|unfold math_inline; stk|unfold code_inline; stk|unfold tags; stk|apply stuck_link| |apply stuck_keyword|apply stuck_text_|apply Forall_nil].
  intros s N. apply stuck_decorated_text. exact N.
Qed.
Notation NC := (n_cont (fun u => u) nowhere).
Definition Rc (c c' : container) : Prop := NC c = NC c'.
Lemma simp_container : simp (RL Rc) (inline_element_container up dp) (inline_element_container up dp).
Proof.
  assert (X : stuck (many1 (deeper (inline_element up dp)))) by (apply stuck_many1, stuck_deeper, stuck_inline).
  apply simp_located; [exact X|exact X|]. eapply simp_weaken; [apply simp_many1; [apply stuck_deeper, stuck_inline|apply simp_deeper, simp_inline]|].
  intros l l' H. eapply F2_map; [exact H|]. intros. now apply RL_loc.
Qed.
Lemma stuck_container : stuck (inline_element_container up dp).
Proof. apply stuck_located, stuck_many1, stuck_deeper, stuck_inline. Qed.
Lemma stuck_inner : stuck (container_inner up dp).
Proof. apply stuck_pmap, stuck_container. Qed.
Lemma simp_inner : simp Rc (container_inner up dp) (container_inner up dp).
Proof. eapply simp_pmap; [exact simp_container|]. now intros a a' (H & _). Qed.
End End.
