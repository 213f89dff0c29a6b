(** Reading the inline elements of a known line. *)
From Verif Require Import Base ModelSpan ModelComb ModelAst ModelTable ModelLink ModelInline ModelBlock ModelElem
  SpecDoc SpecBlock SpecTree SpecSpan SpecEq SpecRound ProofBase ProofBytes ProofContract ProofPrim ProofInline ProofLink ProofText
  ProofBlock ProofFence ProofDefs ProofTable ProofList ProofPage ProofClaims2 ProofSpan ProofRound ProofRound2 ProofRound3 ProofRound4.
Local Open Scope nat_scope.

Ltac nonl := unfold no_nl; cbn; intuition discriminate.

(** * Outcomes *)

Lemma got_located_at {A} s (p : parser A) n P :
  got s (p s) n P -> got s (located_p p s) n (fun x => P (l_val x) /\ r_off (l_reg x) = sp_start s).
Proof.
  unfold located_p, locate, capture. destruct (p s) as [s1 x| | |]; cbn [bind got]; auto. intros [-> H].
  assert (sp_start (mv n s) <? sp_start s = false) as -> by (apply Nat.ltb_ge; cbn; lia). cbn [got bind].
  split; [reflexivity|]. split; [exact H|]. cbn. unfold with_length. now destruct (_ <? _).
Qed.
Lemma got_map_parser {B} s (p : parser span) (q : parser B) n m o P :
  p s = Ok (mv n s) o -> got o (q o) m P -> got s (map_parser p q s) n P.
Proof.
  intros E H. unfold map_parser. rewrite E. cbn [bind]. unfold got in H.
  destruct (q o) as [s1 x| | |]; cbn in *; auto. split; [reflexivity|apply H].
Qed.
Lemma fails_map_parser {B} s (p : parser span) (q : parser B) : fails (p s) -> fails (map_parser p q s).
Proof. apply fails_bind. Qed.
Lemma fails_alt_nil {A} s : fails (alt (@nil (parser A)) s).
Proof. exact I. Qed.
Lemma fails_alt {A} s (ps : list (parser A)) : Forall (fun p => fails (p s)) ps -> fails (alt ps s).
Proof. induction 1; [exact I|]. cbn. now apply fails_palt. Qed.
Lemma fails_preceded {A B} s (p : parser A) (q : parser B) : fails (p s) -> fails (preceded p q s).
Proof. apply fails_bind. Qed.
Lemma fails_peek {A} s (p : parser A) : fails (p s) -> fails (peek p s).
Proof. apply fails_bind. Qed.
Lemma got_peek {A} s (p : parser A) n P : got s (p s) n P -> got s (peek p s) 0 P.
Proof. unfold peek. destruct (p s); cbn; auto. intros [_ H]. rewrite mv_0. auto. Qed.
Lemma got_peeked {A B} s (p : parser A) (q : parser B) n m P Q :
  got s (p s) n Q -> got s (q s) m P -> got s (preceded (peek p) q s) m P.
Proof.
  intros H K. unfold preceded. apply (got_bind_r s (peek p s) 0 Q); [now apply (got_peek s p n)|]. intros x _. now rewrite mv_0.
Qed.
Lemma got_here {A} s (r : res A) n P : got s r n P -> r <> Panic -> exists x, r = Ok (mv n s) x /\ P x.
Proof. destruct r as [s1 x| | |]; cbn; [intros [-> H] _; eauto|intros []|congruence|intros []]. Qed.

(** * Delimiters *)

Lemma offset_absent pat o : pat <> [] -> absent pat (remaining o) -> offset pat o = Err.
Proof.
  intros Hp Ha. unfold offset. pose proof (offset_of_spec pat (remaining o) Hp) as H.
  destruct (offset_of pat (remaining o)) as [k|]; auto. exfalso. destruct H as (H & _).
  apply starts_with_spec in H as [r H]. apply (Ha (firstn k (remaining o)) r). rewrite <- H. symmetry. apply firstn_skipn.
Qed.

Lemma closes_found d body r k : closes d body -> length d <= 2 -> d <> [] -> 0 < k < length body ->
  ~ found d (body ++ d ++ r) k.
Proof.
  intros C L Ne K (a & b & E & La). subst k.
  assert (X : exists b', body ++ d = a ++ d ++ b').
  { assert (E' : firstn (length body + length d) (body ++ d ++ r) = firstn (length body + length d) (a ++ d ++ b)) by now rewrite E.
    rewrite app_assoc, <- app_length, firstn_app, Nat.sub_diag, firstn_all in E'. cbn [firstn] in E'. rewrite app_nil_r in E'.
    rewrite E'. rewrite app_length, (app_assoc a d b), firstn_app. rewrite firstn_all2 by (rewrite app_length; lia).
    rewrite <- app_assoc. eauto. }
  destruct X as [b' X]. destruct (C a b' X) as [->|[->|H]]; cbn in K; lia.
Qed.

(** The text between two delimiters. *)
Definition within (L body : str) (s : span) : span := tk (length body) (mv (length L) s).
Lemma within_sees L body r s : sees s (L ++ body ++ r) -> sees (within L body s) body.
Proof. intro H. apply sees_mv in H. now apply sees_tk in H. Qed.
Lemma surround_run L Rr body r s :
  sees s (L ++ body ++ Rr ++ r) -> delimited_fine Rr body -> Rr <> [] -> no_nl Rr -> length Rr <= 2 ->
  not_contains pct2 (surround_in_line1 L Rr) s = Ok (mv (length (L ++ body ++ Rr)) s) (within L body s).
Proof.
  intros H (D1 & D2 & D3 & D4) NR LR Le. unfold not_contains. pose proof H as [Hs E].
  pose proof (surround_spec L Rr s Hs NR LR) as T. destruct (surround_in_line1 L Rr s) as [s1 o| | |]; try contradiction.
  - destruct T as (c & r' & E' & Nc & Lc & F & [M ->] & ->). rewrite E in E'. apply app_inv_head in E'.
    assert (Hlen : length c = length body).
    { destruct (Nat.lt_trichotomy (length c) (length body)) as [Lt|[|Gt]]; auto; exfalso.
      - apply (closes_found Rr body r (length c)); auto.
        + destruct c; [congruence|cbn in *; lia].
        + exists c, r'. split; [exact E'|reflexivity].
      - apply (F (length body)).
        + destruct body; [congruence|cbn in *; lia].
        + exists body, r. split; [now symmetry|reflexivity]. }
    cbn [bind].
    assert (Ew : Span (sp_inner s) (sp_start s + length L) (sp_start s + length L + length c) (sp_depth s) = within L body s).
    { unfold within, tk, mv. cbn. now rewrite Hlen. }
    rewrite Ew. pose proof (within_sees _ _ _ _ H) as [W1 W2]. unfold pnot. rewrite offset_absent; [|discriminate|now rewrite W2].
    cbn [bind]. f_equal. unfold mv. rewrite !app_length, Hlen. f_equal. lia.
  - exfalso. exact (T body r E D1 D2).
Qed.
Lemma surround_no L Rr s : (forall r, remaining s <> L ++ r) -> fails (not_contains pct2 (surround_in_line1 L Rr) s).
Proof. intro N. unfold not_contains, surround_in_line1. now rewrite tag_none by auto. Qed.

(** * Inline code and formulas *)

Lemma code_inline_run s t r : sees s ((bs "`" ++ t ++ bs "`") ++ r) -> delimited_fine (bs "`") t ->
  got s (code_inline s) (length (bs "`" ++ t ++ bs "`")) (fun x => l_val x = t /\ r_off (l_reg x) = sp_start s).
Proof.
  intros H D. rewrite <- !app_assoc in H. unfold code_inline. apply (got_located_at s _ _ (fun x => x = t)).
  eapply (got_map_parser s _ cow_str _ 0); [apply (surround_run (bs "`") (bs "`") t r s H D); [discriminate| |cbn; lia]|].
  - nonl.
  - unfold cow_str. pose proof (within_sees _ _ _ _ H) as [W1 W2]. rewrite W2. now apply got_ret.
Qed.
Lemma math_inline_run s t r : sees s ((bs "$" ++ t ++ bs "$") ++ r) ->
  t <> [] -> no_nl t -> absent (bs "%%") t -> ~ In x24 t ->
  got s (math_inline s) (length (bs "$" ++ t ++ bs "$")) (fun x => l_val x = t /\ r_off (l_reg x) = sp_start s).
Proof.
  intros H D1 D2 D3 D4. rewrite <- !app_assoc in H. unfold math_inline. apply (got_located_at s _ _ (fun x => x = t)).
  assert (Hp : delimited (pchar x24) (not_contains pct2 (take_line_until1 (bs "$"))) (pchar x24) s =
    Ok (mv (length (bs "$" ++ t ++ bs "$")) s) (within (bs "$") t s)).
  { unfold delimited, preceded, terminated, not_contains. rewrite (pchar_run x24 s (t ++ bs "$" ++ r)) by exact H. cbn [bind].
    pose proof (sees_mv s (bs "$") _ H) as H1. change (length (bs "$")) with 1 in H1.
    rewrite (tlu1_run (bs "$") (mv 1 s) t (bs "$" ++ r) H1 D1); [|discriminate|cbn; lia|].
    2: { apply (first_stop_byte x24); auto. discriminate. }
    cbn [bind]. unfold pnot. rewrite offset_absent; [|discriminate|].
    2: { pose proof (sees_tk _ _ _ H1) as [_ ->]. exact D3. }
    cbn [bind]. rewrite (pchar_run x24 _ r) by (now apply sees_mv in H1). cbn [bind]. rewrite !mv_mv.
    f_equal. f_equal. rewrite !app_length. change (length (bs "$")) with 1. lia. }
  eapply (got_map_parser s _ cow_str _ 0); [exact Hp|].
  unfold cow_str. pose proof (within_sees _ _ _ _ H) as [W1 W2]. rewrite W2. now apply got_ret.
Qed.

(** * Keywords *)

Lemma keyword_run s k r : sees s (kw_str k ++ r) ->
  got s (p_keyword s) (length (kw_str k)) (fun x => l_val x = k /\ r_off (l_reg x) = sp_start s).
Proof.
  intros H. unfold p_keyword. apply (got_located_at s _ _ (fun x => x = k)).
  assert (V : forall k', value k' (tag (kw_str k')) s = if starts_with (kw_str k') (remaining s) then Ok (mv (length (kw_str k')) s) k' else Err).
  { intro k'. unfold value, pmap. destruct (starts_with (kw_str k') (remaining s)) eqn:E.
    - apply starts_with_spec in E as [q E]. rewrite (tag_run _ s q) by (split; [apply H|exact E]). reflexivity.
    - now rewrite tag_err. }
  destruct H as [Hs E].
  pose proof (V KDone) as V1. pose proof (V KFixed) as V2. pose proof (V KFixme) as V3. pose proof (V KStarted) as V4.
  pose proof (V KTodo) as V5. pose proof (V KXxx) as V6. cbn [kw_str] in V1, V2, V3, V4, V5, V6.
  cbn [alt]. unfold palt. rewrite V1, V2, V3, V4, V5, V6, E.
  destruct k; cbn; auto.
Qed.
Lemma keyword_no s : (forall k r, remaining s <> kw_str k ++ r) -> fails (p_keyword s).
Proof.
  intro N. unfold p_keyword. apply fails_located, fails_alt.
  repeat constructor; apply (fails_pmap s (tag _)); rewrite tag_none; try exact I; intro r.
  - apply (N KDone). - apply (N KFixed). - apply (N KFixme). - apply (N KStarted). - apply (N KTodo). - apply (N KXxx).
Qed.
