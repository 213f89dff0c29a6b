(** Reading plain text, tags, comments and decorated text of a known line. *)
From Verif Require Import Base ModelSpan ModelComb ModelAst ModelTable ModelLink ModelInline ModelBlock ModelElem
  SpecDoc SpecBlock SpecTree SpecSpan SpecEq SpecRound ProofBase ProofBytes ProofContract ProofPrim ProofInline ProofLink ProofText
  ProofBlock ProofFence ProofDefs ProofTable ProofList ProofPage ProofClaims2 ProofSpan ProofRound ProofRound2 ProofRound3 ProofRound4 ProofRound5 ProofRound6.
Local Open Scope nat_scope.

(** * What was read before *)

(** [before] was read last; if nothing was, a word may begin here. *)
Definition ctxt (s : span) (before : str) : Prop :=
  exists pre, consumed s = pre ++ before /\ (before = [] -> ws_before pre).
Lemma consumed_mv s a r : sees s (a ++ r) -> consumed (mv (length a) s) = consumed s ++ a.
Proof.
  intros [[H1 H2] E]. unfold consumed, mv. cbn [sp_start sp_inner].
  assert (L : length (remaining s) = sp_end s - sp_start s) by (unfold remaining; now rewrite slice_length).
  rewrite E, app_length in L.
  unfold remaining, slice in E. rewrite <- (firstn_skipn (sp_start s) (sp_inner s)) at 1.
  rewrite firstn_app, firstn_length_le by lia. rewrite firstn_all2 by (rewrite firstn_length; lia). f_equal.
  replace (sp_start s + length a - sp_start s) with (length a) by lia.
  rewrite <- (firstn_skipn (sp_end s - sp_start s) (skipn (sp_start s) (sp_inner s))), E.
  rewrite <- app_assoc, firstn_app, Nat.sub_diag, firstn_all. cbn. now rewrite app_nil_r.
Qed.
Lemma ctxt_mv s a r before : sees s (a ++ r) -> ctxt s before -> ctxt (mv (length a) s) (before ++ a).
Proof.
  intros H (pre & E & W). exists pre. split; [|intro K; apply app_eq_nil in K as [K _]; auto].
  rewrite (consumed_mv _ _ _ H), E. now rewrite app_assoc.
Qed.
Lemma ctxt_within s L body r before : sees s (L ++ body ++ r) -> ctxt s before -> ctxt (within L body s) (before ++ L).
Proof. intros H C. exact (ctxt_mv s L _ before H C). Qed.
Lemma ctxt_word s before : ctxt s before -> after_word before ->
  exists c r, rev (consumed s) = c :: r /\ is_ascii_ws c = false.
Proof.
  intros (pre & E & W) (a & c & -> & Hc). rewrite E, app_assoc, rev_app_distr. cbn. eauto.
Qed.
Lemma ctxt_ws s before : ctxt s before -> ws_before before ->
  consumed s = [] \/ exists c r, rev (consumed s) = c :: r /\ is_ascii_ws c = true.
Proof.
  intros (pre & E & W) B. rewrite E. destruct B as [->|(a & c & -> & Hc)].
  - rewrite app_nil_r. destruct (W eq_refl) as [->|(a & c & -> & Hc)]; [now left|]. right. rewrite rev_app_distr. cbn. eauto.
  - right. rewrite app_assoc, rev_app_distr. cbn. eauto.
Qed.

(** * Line ends *)

Lemma quiet_tail t next tail : quiet t next -> line_end tail -> quiet t (next ++ tail).
Proof.
  intros Q Ht a b E Nb. destruct (Q a b E Nb) as [Q1 Q2]. split.
  - intros w r Hw K. rewrite app_assoc in K. symmetry in K. apply nl_free_prefix in K as [q K]; auto.
    + now apply (Q1 w q Hw).
    + cbn in Hw. repeat (destruct Hw as [<-|Hw]; [nonl|]). destruct Hw.
  - intros (w & r & K & L). rewrite app_assoc in K. change (w ++ bs ":" ++ r) with (w ++ [x3a] ++ r) in K. rewrite app_assoc in K.
    symmetry in K. apply nl_free_prefix in K as [q K]; auto.
    + apply Q2. exists w, q. rewrite K, <- app_assoc. auto.
    + intro I. apply in_app_or in I as [I|[I|[]]]; [|discriminate].
      apply (in_map lower) in I. change (lower b_nl) with b_nl in I. cbn in L.
      repeat (destruct L as [L|L]; [rewrite <- L in I; cbn in I; intuition discriminate|]). destruct L.
Qed.
Lemma line_end_ws tail : line_end tail -> ws_after tail.
Proof. intros [->|[r ->]]; [now left|]. right. exists b_nl, r. auto. Qed.
Lemma ws_after_tail next tail : ws_after next -> line_end tail -> ws_after (next ++ tail).
Proof. intros [->|(c & r & -> & H)] Ht; [now apply line_end_ws|]. right. exists c, (r ++ tail). auto. Qed.

(** * Tags *)

Lemma count_word w r : Forall (fun b => is_ascii_ws b = false) w -> ws_after r ->
  count_while (fun c => negb (is_ascii_ws c)) (w ++ r) = length w.
Proof.
  induction 1 as [|b w Hb F IH]; intro K; cbn [app count_while length].
  - destruct K as [->|(c & r' & -> & Hc)]; [reflexivity|]. cbn. now rewrite Hc.
  - rewrite Hb. cbn. f_equal. auto.
Qed.
Lemma whole_word_run s w r before : sees s (w ++ r) -> ctxt s before -> ws_before before -> w <> [] ->
  Forall (fun b => is_ascii_ws b = false) w -> ws_after r -> whole_word s = Ok (mv (length w) s) (tk (length w) s).
Proof.
  intros H C B Nw F K. unfold whole_word, take_while1.
  assert (match rev (consumed s) with [] => true | c :: _ => is_ascii_ws c end = true) as ->.
  { destruct (ctxt_ws s before C B) as [->|(c & q & -> & Hc)]; auto. }
  cbn [negb]. pose proof H as [Hs E]. rewrite E, count_word by auto.
  destruct w as [|c w]; [congruence|]. cbn [Nat.eqb length]. apply (split_run _ _ ((c :: w) ++ r)); auto. rewrite app_length. cbn. lia.
Qed.
Definition tag_fine (t : str) : Prop := t <> [] /\ ~ In x3a t /\ Forall (fun b => is_ascii_ws b = false) t.
Lemma ws_free_nl t : Forall (fun b => is_ascii_ws b = false) t -> no_nl t /\ ~ In b_sp t /\ ~ In b_tab t /\ ~ In b_cr t.
Proof.
  intro F. rewrite Forall_forall in F. repeat split; intro K; apply F in K; discriminate.
Qed.
Lemma tag_content_run s t r : sees s ((t ++ bs ":") ++ r) -> tag_fine t ->
  terminated tag_content (pchar x3a) s = Ok (mv (length (t ++ bs ":")) s) t.
Proof.
  intros H (F1 & F2 & F3). rewrite <- app_assoc in H. unfold terminated, tag_content.
  destruct (ws_free_nl t F3) as (N1 & N2 & N3 & _).
  rewrite (map_cow_run _ s t (bs ":" ++ r) H).
  2: { apply (tlu3_run _ _ _ s t _ H F1); try discriminate. apply first_stop_marks; auto.
    - right. exists x3a, r. repeat split; [discriminate|now left].
    - intros p [<-|[<-|[<-|[]]]]; [exists x3a|exists b_sp|exists b_tab]; now left. }
  cbn [bind]. rewrite (pchar_run x3a _ r) by now apply sees_mv in H. cbn [bind]. rewrite mv_mv, app_length. reflexivity.
Qed.
Lemma tag_content_end s : sees s [] -> fails (terminated tag_content (pchar x3a) s).
Proof.
  intro H. apply fails_bind, fails_map_parser. unfold take_line_until_one_of_three1, verify, take_line_until_one_of_three.
  rewrite (proj2 H). assert (tlu3_pos (bs ":") (bs " ") [b_tab] [] = 0) as -> by reflexivity.
  rewrite (split_run 0 s [] H) by (cbn; lia). cbn [bind]. unfold non_empty, sp_is_empty.
  pose proof (sees_tk s [] [] H) as T. cbn [length] in T. rewrite (sees_len _ _ T). exact I.
Qed.
Definition tags_src (ts : list str) : str := flat_map (fun t => t ++ bs ":") ts.
Lemma tags_many s ts : sees s (tags_src ts) -> Forall tag_fine ts ->
  got s (many0 (terminated tag_content (pchar x3a)) s) (length (tags_src ts)) (fun l => l = ts).
Proof.
  revert s. induction ts as [|t ts IH]; intros s H F.
  - apply got_many0_nil. now apply tag_content_end.
  - inversion F as [|x l F1 F2 E1]; subst. cbn [tags_src flat_map] in *. fold (tags_src ts) in *. rewrite app_length.
    eapply got_weaken; [apply (got_many0_cons s _ _ (length (t ++ bs ":")) (length (tags_src ts)) (fun x => x = t) (fun l => l = ts) H)|].
    + rewrite !app_length. lia.
    + rewrite app_length. change (length (bs ":")) with 1. lia.
    + apply got_eq. now apply tag_content_run with (r := tags_src ts).
    + apply IH; auto. now apply sees_mv in H.
    + cbv beta. intros x (y & l & -> & -> & ->). reflexivity.
Qed.
Lemma tags_run s ts r before : sees s ((bs ":" ++ tags_src ts) ++ r) -> ctxt s before -> ws_before before ->
  ws_after r -> ts <> [] -> Forall tag_fine ts ->
  got s (tags s) (length (bs ":" ++ tags_src ts)) (fun x => l_val x = ts /\ r_off (l_reg x) = sp_start s).
Proof.
  intros H C B K Nt F. unfold tags. apply (got_located_at s _ _ (fun x => x = ts)).
  assert (Fw : Forall (fun b => is_ascii_ws b = false) (bs ":" ++ tags_src ts)).
  { constructor; [reflexivity|]. clear -F. induction F as [|t ts (_ & _ & Ft) F IH]; [constructor|].
    cbn [tags_src flat_map]. fold (tags_src ts). rewrite !Forall_app. repeat split; auto. now constructor. }
  assert (Nw : bs ":" ++ tags_src ts <> []) by discriminate.
  pose proof (sees_tk _ _ _ H) as T.
  eapply (got_map_parser s _ _ _ (length (bs ":") + length (tags_src ts))); [exact (whole_word_run s _ r before H C B Nw Fw K)|].
  set (o := tk _ s) in *. destruct ts as [|t ts]; [congruence|]. inversion F as [|x l F1 F2 E1]; subst.
  eapply got_bind; [apply got_eq; exact (pchar_run x3a o _ T)|]. cbv beta. intros _ _.
  pose proof (sees_mv o (bs ":") _ T) as T1. change (length (bs ":")) with 1 in T1.
  rewrite <- (Nat.add_0_r (length (tags_src _))). eapply (got_bind _ _ _ (fun l => l = t :: ts)).
  - cbn [tags_src flat_map] in T1 |- *. fold (tags_src ts) in *. rewrite app_length.
    eapply got_weaken; [eapply (got_many1 _ _ _ _ (fun x => x = t) (fun l => l = ts))|].
    + apply got_eq. now apply tag_content_run with (r := tags_src ts).
    + apply tags_many; auto. now apply sees_mv in T1.
    + cbv beta. intros x (y & l & -> & -> & ->). reflexivity.
  - intros x ->. now apply got_ret.
Qed.
(** A colon that begins no tag. *)
Lemma tags_no s r before : sees s (x3a :: r) -> ctxt s before -> after_word before \/ ws_after r -> fails (tags s).
Proof.
  intros H C K. unfold tags. apply fails_located. unfold map_parser.
  destruct (rev (consumed s)) as [|c q] eqn:Ec.
  - destruct K as [K|K].
    { destruct (ctxt_word s before C K) as (c & r' & E & _). congruence. }
    unfold whole_word, take_while1. rewrite Ec. cbn [negb]. rewrite (proj2 H).
    change (x3a :: r) with ([x3a] ++ r). rewrite count_word by (auto; repeat constructor).
    cbn [length Nat.eqb]. rewrite (split_run 1 s _ H) by (cbn; lia). cbn [bind].
    pose proof (sees_tk s [x3a] r H) as T. cbn [length] in T. rewrite (pchar_run x3a _ [] T). cbn [bind].
    apply fails_bind, fails_bind, fails_many1. apply tag_content_end. apply (sees_mv _ [x3a] [] T).
  - unfold whole_word, take_while1. rewrite Ec. destruct (is_ascii_ws c) eqn:Ew; cbn [negb]; [|exact I].
    destruct K as [K|K].
    { destruct (ctxt_word s before C K) as (c' & r' & E & Hc'). congruence. }
    rewrite (proj2 H).
    change (x3a :: r) with ([x3a] ++ r). rewrite count_word by (auto; repeat constructor).
    cbn [length Nat.eqb]. rewrite (split_run 1 s _ H) by (cbn; lia). cbn [bind].
    pose proof (sees_tk s [x3a] r H) as T. cbn [length] in T. rewrite (pchar_run x3a _ [] T). cbn [bind].
    apply fails_bind, fails_bind, fails_many1. apply tag_content_end. apply (sees_mv _ [x3a] [] T).
Qed.

(** * Comments *)

Lemma comment_run s t tail : sees s ((bs "%%" ++ t) ++ tail) -> whole_line t tail -> (exists q, t = bs " " ++ q) ->
  got s (p_comment s) (length (bs "%%" ++ t)) (fun x => l_val x = CLine t /\ r_off (l_reg x) = sp_start s).
Proof.
  intros H W [q Eq]. unfold p_comment. apply got_palt_r.
  - apply fails_located. rewrite tag_none; [exact I|]. intro r. rewrite (proj2 H), Eq. cbn. discriminate.
  - apply (got_located_at s _ _ (fun x => x = CLine t)). rewrite <- app_assoc in H. rewrite app_length.
    eapply got_bind; [apply got_eq; exact (tag_run _ s _ H)|]. cbv beta. intros _ _. pose proof (sees_mv _ _ _ H) as H1.
    rewrite <- (Nat.add_0_r (length t)). eapply (got_bind _ _ _ (fun x => x = t)).
    + apply got_eq. apply (map_cow_run _ _ t tail H1). now apply until_eol_run with (r := tail).
    + intros x ->. now apply got_ret.
Qed.
Lemma comment_no s : (forall r, remaining s <> bs "%%" ++ r) -> fails (p_comment s).
Proof.
  intro N. apply fails_palt; apply fails_located; rewrite tag_none; try exact I; auto.
  intros r K. apply (N (bs "+" ++ r)). exact K.
Qed.

Lemma math_no s : (forall r, remaining s <> bs "$" ++ r) -> fails (math_inline s).
Proof.
  intro N. unfold math_inline. apply fails_located, fails_map_parser. unfold delimited, preceded. apply fails_bind.
  now rewrite pchar_err by exact N.
Qed.
Lemma code_no s : (forall r, remaining s <> bs "`" ++ r) -> fails (code_inline s).
Proof. intro N. unfold code_inline. apply fails_located, fails_map_parser. now apply surround_no. Qed.
Lemma tags_head_no s : span_ok s -> (forall r, remaining s <> bs ":" ++ r) -> fails (tags s).
Proof.
  intros Hs N. unfold tags. apply fails_located. unfold map_parser, whole_word, take_while1.
  destruct (negb _); [exact I|]. destruct (count_while _ (remaining s)) as [|n] eqn:Ec; [exact I|]. cbn [Nat.eqb].
  assert (L : S n <= length (remaining s)) by (rewrite <- Ec; apply count_while_le).
  rewrite (split_run (S n) s (remaining s)) by (try split; auto). cbn [bind]. apply fails_bind, fails_bind.
  rewrite pchar_err; [exact I|]. intros r E. unfold tk in E. rewrite remaining_taken in E by auto.
  destruct (remaining s) as [|c q]; [discriminate|]. cbn in E. injection E as -> _. now apply (N q).
Qed.

(** * Decorations *)

Definition delims : list str := [bs "*"; bs "_"; bs "~~"; bs "^"; bs ",,"].
(** [s] sees none of the texts in [ws]. *)
Definition sees_none (ws : list str) (s : span) : Prop := forall w r, In w ws -> remaining s <> w ++ r.

Lemma sees_none_incl ws ws' s : sees_none ws s -> incl ws' ws -> sees_none ws' s.
Proof. intros H I w r K. apply H, I, K. Qed.

Section Text.
Variable up : str -> option uri.
Variable dp : str -> option date.
Variable lossy : str -> str.
(** The scheme of a URI is the text before its first colon. *)
Hypothesis Hsch : forall t u s, up t = Some u -> u_scheme u = Some s -> In s web_schemes ->
  exists w r, t = w ++ bs ":" ++ r /\ map lower w = s.
Local Notation link_src := (link_src lossy).
Local Notation dc_src := (dc_src lossy).
Local Notation dcs_src := (dcs_src lossy).
Local Notation inline_src := (inline_src lossy).
Local Notation cont_src := (cont_src lossy).
Local Notation link_fine := (link_fine up dp lossy).
Local Notation dc_fine := (dc_fine up dp lossy).
Local Notation inline_fine := (inline_fine up dp lossy).

Definition same_dcs (a b : list (located dcontent)) : Prop :=
  forall cu, map (n_loc nowhere (n_dc cu nowhere)) a = map (n_loc nowhere (n_dc cu nowhere)) b.
Definition same_inline (a b : inline) : Prop := forall cu, n_inline cu nowhere a = n_inline cu nowhere b.
Definition same_dc (a b : dcontent) : Prop := forall cu, n_dc cu nowhere a = n_dc cu nowhere b.

(** What is needed of a parser of decorated text at [s]. *)
Definition dec_ok (dec : parser (located decorated)) (s : span) : Prop :=
  (forall k cs before next tail, sees s (dc_src (DCDeco k cs) ++ next ++ tail) -> line_end tail -> ctxt s before ->
     dc_fine before (DCDeco k cs) next ->
     got s (dec s) (length (dc_src (DCDeco k cs)))
       (fun d => (fst (l_val d) = k /\ same_dcs (snd (l_val d)) cs) /\ r_off (l_reg d) = sp_start s)) /\
  (span_ok s -> sees_none delims s -> fails (dec s)).

Definition as_inline (c : dcontent) : inline :=
  match c with
  | DCText t => IText t
  | DCDeco k cs => IDeco k cs
  | DCKeyword k => IKeyword k
  | DCLink l => ILink l
  end.

(** * Where no element but text begins *)

Lemma no_peek {A B} c (q : parser A) (f : A -> B) s : (forall r, remaining s <> c :: r) -> fails (pmap (preceded (peek (pchar c)) q) f s).
Proof. intro N. apply fails_pmap, fails_preceded, fails_peek. now rewrite pchar_err. Qed.
Lemma head_no c l (ws : list str) : (forall w, In w ws -> exists b r, w = b :: r /\ b <> c) ->
  forall w r, In w ws -> c :: l <> w ++ r.
Proof. intros H w r Hw E. destruct (H w Hw) as (b & q & -> & K). cbn in E. injection E as E _. congruence. Qed.

(** The scheme of a raw link and a keyword differ. *)
Definition comparable (a b : str) : bool := starts_with a b || starts_with b a.
Lemma comparable_spec (a b x y : str) : a ++ x = b ++ y -> comparable a b = true.
Proof.
  intro E. unfold comparable. apply orb_true_iff. apply app_eq_app in E as (l & [[-> _]|[-> _]]).
  - right. apply starts_with_spec. eauto.
  - left. apply starts_with_spec. eauto.
Qed.
Fixpoint suffixes (l : str) : list str := match l with [] => [] | _ :: l' => l :: suffixes l' end.
Lemma suffixes_in a b : b <> [] -> In b (suffixes (a ++ b)).
Proof. intro Nb. induction a as [|c a IH]; cbn; [destruct b; [congruence|now left]|now right]. Qed.
Definition kws : list str := [bs "TODO"; bs "DONE"; bs "STARTED"; bs "FIXME"; bs "FIXED"; bs "XXX"].
Lemma schemes_kws : forallb (fun sc => forallb (fun x => forallb (fun k => negb (comparable (x ++ bs ":") (map lower k))) kws) (suffixes sc)) web_schemes = true.
Proof. vm_compute. reflexivity. Qed.
Lemma kw_in k : In (kw_str k) kws.
Proof. destruct k; cbn; auto 8. Qed.
Lemma scheme_no_kw (a b r : str) k q : In (map lower (a ++ b)) web_schemes -> b <> [] -> b ++ bs ":" ++ r <> kw_str k ++ q.
Proof.
  intros L Nb E. apply (f_equal (map lower)) in E. rewrite !map_app in E. change (map lower (bs ":")) with (bs ":") in E.
  rewrite app_assoc in E. apply comparable_spec in E.
  pose proof schemes_kws as F. rewrite forallb_forall in F. specialize (F _ L). rewrite forallb_forall in F.
  rewrite map_app in F. assert (Nm : map lower b <> []) by (destruct b; [congruence|discriminate]).
  specialize (F (map lower b) (suffixes_in _ _ Nm)).
  rewrite forallb_forall in F. specialize (F _ (kw_in k)). now rewrite E in F.
Qed.
Lemma kw_no_web k r : ~ web_head (kw_str k ++ r).
Proof.
  intros (w & q & E & L). destruct w as [|c w]; [cbn in L; intuition discriminate|].
  symmetry in E. revert E. apply (scheme_no_kw [] (c :: w)); [exact L|discriminate].
Qed.

Lemma palt_rest {A} s (p q : parser A) : fails (p s) -> palt p q s = Panic \/ palt p q s = q s.
Proof. unfold palt. destruct (p s); cbn; auto; contradiction. Qed.
Local Ltac skip_alt F :=
  match goal with |- palt ?p ?q ?s = _ \/ _ =>
    let E := fresh in destruct (palt_rest s p q F) as [E|E]; rewrite E; [now left|]; clear E
  end.
Lemma nt_rest dec s : span_ok s -> sees_none openers s -> dec_ok dec s ->
  (forall r, remaining s = x3a :: r -> fails (tags s)) ->
  non_text_ up dp dec s = Panic \/ non_text_ up dp dec s = pmap (raw_link_backtrack up) (lmap ILink) s.
Proof.
  intros Hs No [_ Hd] Ht. unfold non_text_. cbn [alt].
  assert (F1 : fails (pmap (preceded (peek (pchar x25)) p_comment) (lmap IComment) s)).
  { apply fails_pmap. apply (fails_bind_ends (peek (pchar x25) s)).
    - unfold peek, pchar. destruct (remaining s) as [|b r]; [exact I|]. now destruct (beqb b x25).
    - intros s' x E. unfold peek in E. destruct (pchar x25 s); try discriminate. injection E as <- _.
      apply comment_no. intro r. apply No. cbn; auto. }
  assert (F2 : fails (pmap (preceded (peek (pchar x60)) code_inline) (lmap ICode) s)).
  { apply no_peek. intro r. apply (No (bs "`")). cbn; auto. }
  assert (F3 : fails (pmap (preceded (peek (pchar x24)) math_inline) (lmap IMath) s)).
  { apply no_peek. intro r. apply (No (bs "$")). cbn; auto. }
  assert (F4 : fails (pmap (preceded (peek (pchar x3a)) tags) (lmap ITags) s)).
  { destruct (remaining s) as [|b r] eqn:E; [apply no_peek; intro r; rewrite E; discriminate|].
    destruct (byte_eq_dec b x3a) as [->|Nb]; [|apply no_peek; intro q; rewrite E; congruence].
    apply fails_pmap. unfold preceded, peek. rewrite (pchar_run x3a s r) by (split; auto). cbn [bind]. now apply (Ht r). }
  assert (Pk : forall (A : Type) (p : parser A), peek p s = Panic \/ peek p s = Err \/ peek p s = OutOfFuel \/ exists x, peek p s = Ok s x).
  { intros A p. unfold peek. destruct (p s) as [s1 x| | |]; cbn [bind]; [do 3 right; now exists x|auto|auto|auto]. }
  assert (F5 : fails (pmap (preceded (peek (palt (pchar x5b) (pchar x7b))) (p_link up dp)) (lmap ILink) s)).
  { apply fails_pmap. unfold preceded. destruct (Pk _ (palt (pchar x5b) (pchar x7b))) as [E|[E|[E|[x E]]]]; rewrite E; try exact I.
    - exfalso. unfold peek, palt, pchar in E. destruct (remaining s) as [|b r]; [discriminate|]. destruct (beqb b x5b), (beqb b x7b); discriminate.
    - cbn [bind]. apply (link_no up dp Hsch); [exact Hs|intro r; apply No; cbn; tauto|intro r; apply No; cbn; tauto|].
      unfold peek, palt, pchar in E. destruct (remaining s) as [|b r]; [discriminate|]. intro W. apply web_letter in W.
      destruct (beqb b x5b) eqn:B1; [apply beqb_eq in B1; subst; vm_compute in W; intuition discriminate|].
      destruct (beqb b x7b) eqn:B2; [apply beqb_eq in B2; subst; vm_compute in W; intuition discriminate|]. discriminate. }
  assert (F6 : fails (pmap (preceded (peek (alt [pchar x2a; pchar x5f; pchar x7e; pchar x5e; pchar x2c])) dec)
             (lmap (fun d => IDeco (fst d) (snd d))) s)).
  { apply fails_pmap. unfold preceded. destruct (Pk _ (alt [pchar x2a; pchar x5f; pchar x7e; pchar x5e; pchar x2c])) as [E|[E|[E|[x E]]]]; rewrite E; try exact I.
    - exfalso. unfold peek, alt, palt, pchar in E. destruct (remaining s) as [|b r]; [discriminate|].
      destruct (beqb b x2a), (beqb b x5f), (beqb b x7e), (beqb b x5e), (beqb b x2c); discriminate.
    - cbn [bind]. apply Hd; auto. apply (sees_none_incl _ _ _ No). intros w Hw. cbn in *. intuition auto 12. }
  assert (F7 : fails (pmap p_keyword (lmap IKeyword) s)).
  { apply fails_pmap, keyword_no. intros k r. apply No. destruct k; cbn; auto 20. }
  skip_alt F1.
  skip_alt F2.
  skip_alt F3.
  skip_alt F4.
  skip_alt F5.
  skip_alt F6.
  skip_alt F7.
  unfold palt. destruct (pmap (raw_link_backtrack up) (lmap ILink) s); auto.
Qed.

(** Looking back from a colon. *)
Definition word_back (s : span) : nat := count_while (fun b => negb (is_ascii_ws b)) (rev (consumed s)).
Lemma consumed_len s : span_ok s -> length (consumed s) = sp_start s.
Proof. intros [H1 H2]. unfold consumed. rewrite firstn_length. lia. Qed.
Lemma word_back_le s : span_ok s -> word_back s <= sp_start s.
Proof. intro H. rewrite <- (consumed_len s H), <- rev_length. apply count_while_le. Qed.
Definition back (n : nat) (s : span) : span := Span (sp_inner s) (sp_start s - n) (sp_end s) (sp_depth s).
Lemma backtrack_back n s : n <= sp_start s -> backtrack_start_by n s = back n s.
Proof. intro H. unfold backtrack_start_by, back. destruct (Nat.ltb_spec (sp_start s) n); [lia|reflexivity]. Qed.
Lemma back_mv n m s : n <= m -> back n (mv m s) = mv (m - n) s.
Proof. intro H. unfold back, mv. cbn. f_equal. lia. Qed.
Lemma raw_back_colon s r : sees s (x3a :: r) -> raw_link_backtrack up s = raw_link up (back (word_back s) s).
Proof.
  intro H. unfold raw_link_backtrack, preceded, peek. rewrite (pchar_run x3a s r H). cbn [bind].
  fold (word_back s). rewrite backtrack_back; [reflexivity|]. apply word_back_le, H.
Qed.
Lemma raw_back_no s : (forall r, remaining s <> x3a :: r) -> fails (raw_link_backtrack up s).
Proof. intro N. apply fails_preceded, fails_peek. now rewrite pchar_err. Qed.

(** * One byte of plain text *)

Lemma text_step dec s0 t next tail a b before :
  sees s0 (t ++ next ++ tail) -> line_end tail -> text_fine before t next -> ctxt s0 before ->
  t = a ++ b -> b <> [] -> dec_ok dec (mv (length a) s0) ->
  match non_text_ up dp dec (mv (length a) s0) with
  | Err | Panic => True
  | Ok _ x => r_off (l_reg x) < sp_start s0
  | OutOfFuel => False
  end.
Proof.
  intros H Ht (F1 & F2 & F3 & F4 & F5) C Et Nb Hd. set (s := mv (length a) s0) in *.
  pose proof (quiet_tail _ _ _ F4 Ht) as Q.
  assert (Hb : sees s (b ++ next ++ tail)).
  { apply (sees_mv s0 a). rewrite Et, <- app_assoc in H. exact H. }
  assert (Cs : ctxt s (before ++ a)).
  { apply (ctxt_mv s0 a (b ++ next ++ tail)); auto. rewrite Et, <- app_assoc in H. exact H. }
  destruct (Q a b Et Nb) as [Q1 Q2].
  assert (K : non_text_ up dp dec s = Panic \/ non_text_ up dp dec s = pmap (raw_link_backtrack up) (lmap ILink) s).
  { apply nt_rest; auto.
    - apply Hb.
    - intros w r Hw. rewrite (proj2 Hb). now apply Q1.
    - intros r Er. rewrite (proj2 Hb) in Er. destruct b as [|c b]; [congruence|]. cbn [app] in Er. injection Er as -> Er.
      apply (tags_no s (b ++ next ++ tail) (before ++ a)); [exact Hb|exact Cs|].
      destruct (F5 a b Et) as [W|W]; [now left|right]. rewrite app_assoc. now apply ws_after_tail. }
  destruct K as [K|K]; rewrite K; [exact I|]. destruct b as [|c b]; [congruence|]. destruct (byte_eq_dec c x3a) as [->|Nc].
  2: { assert (Z : fails (pmap (raw_link_backtrack up) (lmap ILink) s)).
       { apply fails_pmap, raw_back_no. intro r. rewrite (proj2 Hb). cbn. congruence. }
       unfold fails in Z. destruct (pmap _ _ s); auto; contradiction. }
  unfold pmap. rewrite (raw_back_colon s (b ++ next ++ tail) Hb).
  destruct (Nat.leb_spec (word_back s) (length a)) as [Le|Gt].
  - assert (Z : fails (raw_link up (back (word_back s) s))).
    { unfold s at 2. rewrite back_mv by auto. set (n := length a - word_back s).
      assert (En : n = length (firstn n a)) by (rewrite firstn_length; lia).
      assert (Sn : sees (mv n s0) (skipn n a ++ (x3a :: b) ++ next ++ tail)).
      { apply (sees_mvn n s0 (firstn n a)); [|exact En]. rewrite app_assoc, firstn_skipn, app_assoc, <- Et. exact H. }
      apply (raw_no up dp Hsch); [apply Sn|]. rewrite (proj2 Sn).
      destruct (Q (firstn n a) (skipn n a ++ x3a :: b)) as [_ Q3].
      - now rewrite app_assoc, firstn_skipn.
      - intro E. apply app_eq_nil in E. now destruct E.
      - now rewrite <- app_assoc in Q3. }
    unfold fails in Z. destruct (raw_link up _); cbn; auto; contradiction.
  - assert (Ok' : span_ok (back (word_back s) s)).
    { pose proof (word_back_le s (sees_ok _ _ Hb)). destruct (sees_ok _ _ Hb) as [Z1 Z2]. split; cbn in *; lia. }
    destruct (raw_spec up dp _ Ok') as [Z|(u & E & _)].
    + unfold fails in Z. destruct (raw_link up _); cbn; auto; contradiction.
    + rewrite E. cbn [bind lmap l_reg r_off]. pose proof (word_back_le s (sees_ok _ _ Hb)). assert (sp_start s = sp_start s0 + length a) by reflexivity. cbn [back sp_start]. lia.
Qed.

(** * All of a plain text *)

(** The loop of plain text stops at [s]. *)
Definition halts (nt : parser (located inline)) (s : span) : Prop :=
  forall fuel len, remaining_len s < fuel ->
    match text_loop fuel nt s len with Ok _ n => n = len | Panic => True | _ => False end.
Lemma halts_end nt s tail : sees s tail -> line_end tail -> halts nt s.
Proof.
  intros H Ht [|fuel] len L; [lia|]. cbn [text_loop]. rewrite (proj2 H). destruct Ht as [->|[r ->]]; reflexivity.
Qed.
Lemma halts_got nt s n : got s (nt s) n (fun x => r_off (l_reg x) = sp_start s) -> halts nt s.
Proof.
  intros H [|fuel] len L; [lia|]. cbn [text_loop]. destruct (remaining s) as [|b r]; [reflexivity|].
  destruct (is_nl b || (beqb b b_cr && starts_with nl_str r)); [reflexivity|].
  destruct (nt s) as [s1 x| | |]; cbn in H; try contradiction; auto. destruct H as [_ ->]. now rewrite Nat.ltb_irrefl.
Qed.
Lemma loop_run dec s0 t next tail before :
  sees s0 (t ++ next ++ tail) -> line_end tail -> text_fine before t next -> ctxt s0 before ->
  (forall s, remaining_len s <= remaining_len s0 -> dec_ok dec s) ->
  halts (non_text_ up dp dec) (mv (length t) s0) ->
  forall b a fuel, t = a ++ b -> remaining_len (mv (length a) s0) < fuel ->
    match text_loop fuel (non_text_ up dp dec) (mv (length a) s0) (length a) with
    | Ok _ n => n = length t
    | Panic => True
    | _ => False
    end.
Proof.
  intros H Ht F C Hd Hh. induction b as [|c b IH]; intros a fuel E L.
  - rewrite app_nil_r in E. subst a. now apply Hh.
  - destruct fuel as [|fuel]; [lia|].
    assert (Hs : sees (mv (length a) s0) (c :: b ++ next ++ tail)).
    { apply (sees_mv s0 a). rewrite E, <- app_assoc in H. exact H. }
    assert (Le : remaining_len (mv (length a) s0) <= remaining_len s0).
    { rewrite (sees_len _ _ Hs), (sees_len _ _ H), E, !app_length. cbn. rewrite !app_length. lia. }
    pose proof (text_step dec s0 t next tail a (c :: b) before H Ht F C E ltac:(discriminate) (Hd _ Le)) as S.
    cbn [text_loop]. rewrite (proj2 Hs). destruct F as (F1 & F2 & F3 & _).
    assert (Ic : In c t) by (rewrite E; apply in_or_app; right; now left).
    assert (is_nl c = false) as -> by (destruct (is_nl c) eqn:K; auto; apply beqb_eq in K; subst; now elim F2).
    assert (beqb c b_cr = false) as -> by (destruct (beqb c b_cr) eqn:K; auto; apply beqb_eq in K; subst; now elim F3).
    cbn [orb andb]. destruct (non_text_ up dp dec (mv (length a) s0)) as [s1 x| | |]; auto.
    + cbn [mv sp_start]. destruct (Nat.ltb_spec (r_off (l_reg x)) (sp_start s0 + length a)) as [K|K]; [|lia].
      destruct (Nat.ltb_spec (length a) (sp_start s0 + length a - r_off (l_reg x))); [exact I|lia].
    + assert (advance_start_by 1 (mv (length a) s0) = mv (length (a ++ [c])) s0) as ->.
      { destruct (advance_moved 1 _ (sees_ok _ _ Hs)) as [_ ->]; [rewrite (proj2 Hs); cbn; lia|].
        unfold mv. cbn. rewrite app_length. cbn. f_equal. lia. }
      replace (length a + 1) with (length (a ++ [c])) by (rewrite app_length; reflexivity).
      apply IH; [rewrite <- app_assoc; exact E|].
      assert (Hs' : sees (mv (length (a ++ [c])) s0) (b ++ next ++ tail)).
      { apply sees_mv. rewrite <- app_assoc. rewrite E, <- app_assoc in H. exact H. }
      rewrite (sees_len _ _ Hs'). rewrite (sees_len _ _ Hs) in L. cbn in L. lia.
Qed.
Lemma text_run dec s t next tail before :
  sees s (t ++ next ++ tail) -> line_end tail -> text_fine before t next -> ctxt s before ->
  (forall s', remaining_len s' <= remaining_len s -> dec_ok dec s') ->
  halts (non_text_ up dp dec) (mv (length t) s) ->
  got s (text_ (non_text_ up dp dec) s) (length t) (fun x => l_val x = t /\ r_off (l_reg x) = sp_start s).
Proof.
  intros H Ht F C Hd Hh. unfold text_. apply (got_located_at s _ _ (fun x => x = t)).
  pose proof (loop_run dec s t next tail before H Ht F C Hd Hh t [] (S (remaining_len s)) eq_refl) as K.
  cbn [length] in K. rewrite mv_0 in K. specialize (K ltac:(lia)).
  destruct (text_loop _ _ s 0) as [s1 n| | |]; cbn [bind got]; auto. subst n.
  destruct F as (F1 & _). destruct t as [|c t]; [congruence|]. cbn [length Nat.ltb Nat.leb]. change (S (length t)) with (length (c :: t)).
  split.
  - apply (advance_moved _ _ (sees_ok _ _ H)). rewrite (proj2 H), app_length. lia.
  - unfold with_length. destruct (Nat.ltb_spec (length (c :: t)) (remaining_len s)) as [L|L].
    + exact (remaining_tk _ _ _ H).
    + rewrite (sees_len _ _ H), app_length in L. rewrite (proj2 H). destruct (next ++ tail); [apply app_nil_r|cbn in *; lia].
Qed.
Lemma text_none dec s tail : sees s tail -> line_end tail -> fails (text_ (non_text_ up dp dec) s).
Proof.
  intros H Ht. unfold text_. apply fails_located.
  pose proof (halts_end (non_text_ up dp dec) s tail H Ht (S (remaining_len s)) 0 ltac:(lia)) as K.
  destruct (text_loop _ _ s 0); cbn [bind]; auto; try exact I. now subst.
Qed.

(** * Elements that end a plain text *)

Lemma lower_letter sc c : In sc web_schemes -> In (lower c) sc -> is_ascii_ws c = false /\
  c <> b_nl /\ c <> b_cr /\ ~ In c [x25; x60; x24; x3a; x5b; x7b; x2a; x5f; x7e; x5e; x2c].
Proof.
  intros H K.
  assert (L : In (lower c) (flat_map (fun x => x) web_schemes)) by (apply in_flat_map; eauto). clear H K.
  assert (Z : forall x, ~ In (lower x) (flat_map (fun x => x) web_schemes) -> c <> x) by (intros x Hx ->; auto).
  assert (Y : forall x, existsb (beqb (lower x)) (flat_map (fun x => x) web_schemes) = false -> c <> x).
  { intros x Hx. apply Z. intro I. assert (existsb (beqb (lower x)) (flat_map (fun x => x) web_schemes) = true); [|congruence].
    apply existsb_exists. exists (lower x). split; auto. apply beqb_refl. }
  repeat split; try (apply Y; reflexivity).
  - destruct (is_ascii_ws c) eqn:E; auto. exfalso. unfold is_ascii_ws in E.
    destruct c; try discriminate E; revert L; cbn; intuition discriminate.
  - intro I. cbn [In] in I. repeat (destruct I as [I|I]; [symmetry in I; revert I; apply Y; reflexivity|]). destruct I.
Qed.
Lemma openers_split w : In w openers -> (exists k, w = kw_str k) \/
  exists c r, w = c :: r /\ In c [x25; x60; x24; x5b; x7b; x2a; x5f; x7e; x5e; x2c].
Proof.
  intro H. cbn [openers In] in H.
  repeat (destruct H as [<-|H]; [first [right; eexists; eexists; split; [reflexivity|cbn; tauto]
    | left; first [now exists KTodo|now exists KDone|now exists KStarted|now exists KFixme|now exists KFixed|now exists KXxx]]|]).
  destruct H.
Qed.
Lemma word_back_run s w r before : sees s (w ++ r) -> ctxt s before -> ws_before before ->
  Forall (fun b => is_ascii_ws b = false) w -> word_back (mv (length w) s) = length w.
Proof.
  intros H C B F. unfold word_back. rewrite (consumed_mv _ _ _ H), rev_app_distr, <- (rev_length w). apply count_word.
  - apply Forall_rev, F.
  - destruct (ctxt_ws s before C B) as [->|(c & q & -> & Hc)]; [now left|right; eauto].
Qed.
Lemma halts_raw dec s d next tail before : sees s (link_src (LRaw d) ++ next ++ tail) -> line_end tail ->
  raw_fine up d next -> ctxt s before -> ws_before before ->
  (forall s', remaining_len s' <= remaining_len s -> dec_ok dec s') ->
  halts (non_text_ up dp dec) s.
Proof.
  intros H Ht F C B Hd. pose proof F as ((sc0 & S1 & S2) & U & Fw & _).
  destruct (Hsch _ _ _ U S1 S2) as (sc & r & Ew & Lw).
  assert (Hs : sees s (sc ++ x3a :: r ++ next ++ tail)).
  { cbn [SpecRound.link_src inside_src] in H. rewrite Ew in H. rewrite <- !app_assoc in H. exact H. }
  rewrite Ew in Fw. apply Forall_app in Fw as [Fs _].
  assert (Z : forall b a fuel len, sc = a ++ b -> remaining_len (mv (length a) s) < fuel ->
    match text_loop fuel (non_text_ up dp dec) (mv (length a) s) (len + length a) with Ok _ n => n = len | Panic => True | _ => False end).
  2: { intros fuel len L. specialize (Z sc [] fuel len eq_refl). cbn [length] in Z. rewrite mv_0, Nat.add_0_r in Z. now apply Z. }
  induction b as [|c b IH]; intros a fuel len E L; (destruct fuel as [|fuel]; [lia|]).
  - rewrite app_nil_r in E. subst a. pose proof (sees_mv _ _ _ Hs) as Hc. cbn [text_loop]. rewrite (proj2 Hc).
    change (is_nl x3a || (beqb x3a b_cr && _)) with false. cbv iota.
    assert (Nsc : sc <> []) by (intros ->; cbn in Lw; subst sc0; cbn in S2; intuition discriminate).
    assert (K : non_text_ up dp dec (mv (length sc) s) = Panic \/
                non_text_ up dp dec (mv (length sc) s) = pmap (raw_link_backtrack up) (lmap ILink) (mv (length sc) s)).
    { apply nt_rest; [apply Hc| | |].
      - intros w q Hw. rewrite (proj2 Hc). intro K. apply openers_split in Hw as [[k ->]|(c & q' & -> & Hi)].
        + destruct k; discriminate K.
        + cbn [app] in K. injection K as <- _. cbn in Hi. intuition discriminate.
      - apply Hd. rewrite (sees_len _ _ Hc), (sees_len _ _ Hs), app_length. lia.
      - intros q Eq. apply (tags_no _ (r ++ next ++ tail) (before ++ sc) Hc).
        + exact (ctxt_mv _ _ _ _ Hs C).
        + left. destruct (exists_last Nsc) as (x & y & ->). exists (before ++ x), y. rewrite app_assoc. split; auto.
          rewrite Forall_app in Fs. destruct Fs as [_ Fs]. now inversion Fs. }
    destruct K as [-> | ->]; [exact I|]. unfold pmap. rewrite (raw_back_colon _ _ Hc), (word_back_run s sc _ before Hs C B Fs).
    rewrite back_mv, Nat.sub_diag, mv_0 by lia.
    pose proof (raw_run up dp lossy Hsch s d next tail H F Ht) as K. 
    destruct (raw_link up s) as [s1 x| | |]; cbn [bind got] in *; try contradiction; [|exact I]. destruct K as [_ [_ K]].
    cbn [lmap l_reg]. rewrite K. cbn [mv sp_start].
    destruct (Nat.ltb_spec (sp_start s) (sp_start s + length sc)) as [G|G]; [|destruct sc; [congruence|cbn in G; lia]].
    destruct (Nat.ltb_spec (len + length sc) (sp_start s + length sc - sp_start s)); lia.
  - assert (Hc : sees (mv (length a) s) (c :: b ++ x3a :: r ++ next ++ tail)).
    { apply (sees_mv s a). rewrite E, <- app_assoc in Hs. exact Hs. }
    assert (Ic : In (lower c) sc0) by (rewrite <- Lw, E, map_app; apply in_or_app; right; now left).
    destruct (lower_letter _ _ S2 Ic) as (W1 & W2 & W3 & W4).
    cbn [text_loop]. rewrite (proj2 Hc).
    assert (is_nl c = false) as -> by (destruct (is_nl c) eqn:K; auto; apply beqb_eq in K; congruence).
    assert (beqb c b_cr = false) as -> by (destruct (beqb c b_cr) eqn:K; auto; apply beqb_eq in K; congruence).
    cbn [orb andb].
    assert (K : non_text_ up dp dec (mv (length a) s) = Panic \/
                non_text_ up dp dec (mv (length a) s) = pmap (raw_link_backtrack up) (lmap ILink) (mv (length a) s)).
    { apply nt_rest; [apply Hc| | |].
      - intros w q Hw. rewrite (proj2 Hc). apply openers_split in Hw as [[k ->]|(x & q' & -> & Hi)].
        + apply (scheme_no_kw a (c :: b)); [rewrite <- E, Lw; exact S2|discriminate].
        + intro K. cbn [app] in K. injection K as <- _. apply W4. cbn in *. intuition auto 12.
      - apply Hd. rewrite (sees_len _ _ Hc), (sees_len _ _ Hs), E. repeat (rewrite app_length; cbn [length]). lia.
      - intros q Eq. rewrite (proj2 Hc) in Eq. injection Eq as -> _. elim W4. cbn; auto. }
    assert (K2 : fails (non_text_ up dp dec (mv (length a) s))).
    { destruct K as [-> | ->]; [exact I|]. apply fails_pmap, raw_back_no. intros q Eq. rewrite (proj2 Hc) in Eq. injection Eq as -> _. apply W4. cbn; auto. }
    destruct (non_text_ up dp dec (mv (length a) s)); try contradiction; auto.
    assert (advance_start_by 1 (mv (length a) s) = mv (length (a ++ [c])) s) as ->.
    { destruct (advance_moved 1 _ (sees_ok _ _ Hc)) as [_ ->]; [rewrite (proj2 Hc); cbn; lia|].
      unfold mv. cbn. rewrite app_length. cbn. f_equal. lia. }
    replace (len + length a + 1) with (len + length (a ++ [c])) by (rewrite app_length; cbn; lia).
    apply IH; [rewrite <- app_assoc; exact E|].
    assert (Hs' : sees (mv (length (a ++ [c])) s) (b ++ x3a :: r ++ next ++ tail)).
    { apply sees_mv. rewrite <- app_assoc. rewrite E, <- app_assoc in Hs. exact Hs. }
    rewrite (sees_len _ _ Hs'). rewrite (sees_len _ _ Hc) in L. cbn in L. lia.
Qed.
End Text.
