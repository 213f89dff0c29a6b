(** Reading one line of known elements. *)
From Verif Require Import Base ModelSpan ModelComb ModelAst ModelTable ModelLink ModelInline ModelBlock ModelElem
  SpecDoc SpecBlock SpecTree SpecSpan SpecEq SpecRound ProofBase ProofBytes ProofContract ProofPrim ProofInline ProofLink ProofText
  ProofBlock ProofFence ProofDefs ProofTable ProofList ProofPage ProofClaims2 ProofSpan ProofRound ProofRound2 ProofRound3 ProofRound4 ProofRound5 ProofRound6 ProofRound7.
From Verif Require SpecVw ProofVw.
Local Open Scope nat_scope.

Lemma ctxt_deeper s before : ctxt s before -> ctxt (with_deeper s) before.
Proof. exact (fun H => H). Qed.

(** What begins with [c] begins with no text that begins otherwise. *)
Definition other_heads (c : byte) (ws : list str) : bool :=
  forallb (fun w => match w with [] => false | b :: _ => negb (beqb b c) end) ws.
Lemma other_heads_spec c ws : other_heads c ws = true -> forall w r l, In w ws -> c :: l <> w ++ r.
Proof.
  intros H w r l Hw E. unfold other_heads in H. rewrite forallb_forall in H. specialize (H w Hw).
  destruct w as [|b w]; [discriminate|]. cbn in E. injection E as -> _. now rewrite beqb_refl in H.
Qed.
Lemma peek_other {A B} c c' (q : parser A) (f : A -> B) s r : remaining s = c :: r -> c <> c' ->
  fails (pmap (preceded (peek (pchar c')) q) f s).
Proof. intros E N. apply fails_pmap, fails_preceded, fails_peek. rewrite pchar_err; [exact I|]. intro q'. rewrite E. congruence. Qed.
Lemma got_at {A B} s (p : parser (located A)) (f : A -> B) n (P : located A -> Prop) :
  got s (p s) n (fun x => P x /\ r_off (l_reg x) = sp_start s) -> got s (pmap p (lmap f) s) n (fun x => r_off (l_reg x) = sp_start s).
Proof. intro H. eapply got_pmap; [exact H|]. cbv beta. intros x [_ Hx]. exact Hx. Qed.
Lemma not_web c l : ~ In (lower c) [x68; x66; x6c; x6d] -> ~ web_head (c :: l).
Proof. intros N W. apply N. now apply web_letter in W. Qed.

Section Line.
Variable up : str -> option uri.
Variable dp : str -> option date.
Variable lossy : str -> str.
(** The scheme of a URI is the text before its first colon. *)
Hypothesis Hsch : forall t u s, up t = Some u -> u_scheme u = Some s -> In s web_schemes ->
  exists w r, t = w ++ bs ":" ++ r /\ map lower w = s.
Local Notation link_src := (link_src lossy).
Local Notation dc_src := (dc_src lossy).
Local Notation dcs_src := (dcs_src lossy).
Local Notation inline_src := (inline_src lossy).
Local Notation cont_src := (cont_src lossy).
Local Notation link_fine := (link_fine up dp lossy).
Local Notation dc_fine := (dc_fine up dp lossy).
Local Notation inline_fine := (inline_fine up dp lossy).
Local Notation items_fine := (items_fine up dp lossy).
Local Notation dec_ok := (dec_ok up dp lossy).

Fixpoint dcs_fine (before : str) (cs : list (located dcontent)) : Prop :=
  match cs with
  | [] => True
  | x :: cs' => dc_fine before (l_val x) (dcs_src cs') /\ dcs_fine (before ++ dc_src (l_val x)) cs'
  end.
Lemma dc_fine_deco before k cs next : dc_fine before (DCDeco k cs) next =
  (delimited_fine (delim_of k) (dcs_src cs) /\ neighbours beside cs /\ dcs_fine (before ++ delim_of k) cs).
Proof. reflexivity. Qed.
Lemma link_head l next : link_fine l next -> exists c r, link_src l = c :: r.
Proof.
  destruct l; intro F; try (eexists; eexists; reflexivity). destruct F as ((s & E1 & E2) & U & _).
  destruct (web_scheme_head up dp lossy Hsch _ _ _ U E1 E2) as (c & t & E & _). cbn. rewrite E. eauto.
Qed.

(** * Elements that end a plain text *)

Lemma nt_run dec s before i next tail :
  sees s (inline_src i ++ next ++ tail) -> line_end tail -> inline_fine before i next -> ctxt s before -> dec_ok dec s ->
  match i with
  | IText _ | ILink (LRaw _) => False
  | IComment (CLine t) => whole_line t tail
  | _ => True
  end ->
  got s (non_text_ up dp dec s) (length (inline_src i)) (fun x => r_off (l_reg x) = sp_start s).
Proof.
  intros H Ht F C Hd K. pose proof (proj2 H) as E. unfold non_text_. cbn [alt].
  assert (Pk : forall c r (A B : Type) (q : parser A) (f : A -> B) n P, remaining s = c :: r ->
    got s (q s) n (fun x => P (f x)) -> got s (pmap (preceded (peek (pchar c)) q) f s) n P).
  { intros c r A B q f n P Er G. apply (got_pmap s _ f n (fun x => P (f x))); auto.
    apply (got_peeked s (pchar c) q 1 n _ (fun y => y = c)); auto. apply got_eq, (pchar_run c s r). split; [apply H|exact Er]. }
  destruct i as [t|k cs|k|l|ts|t|t|[t|ls]]; cbn [SpecRound.inline_src SpecRound.inline_fine] in *; try contradiction.
  - (* decorated text *)
    destruct Hd as [Hd _]. specialize (Hd k cs before next tail H Ht C F).
    assert (Hh : exists c r, remaining s = c :: r /\ In c [x2a; x5f; x7e; x5e; x2c]).
    { rewrite E. cbn [SpecRound.dc_src]. destruct k; cbn; eexists; eexists; (split; [reflexivity|cbn; tauto]). }
    destruct Hh as (c & r & Er & Hc). 
    assert (Nc : forall c', In c' [x25; x60; x24; x3a; x5b; x7b] -> c <> c') by (cbn in Hc; cbn; intuition congruence).
    do 4 (apply got_palt_r; [apply (peek_other c _ _ _ _ r Er), Nc; cbn; tauto|]).
    apply got_palt_r.
    { apply fails_pmap, fails_preceded, fails_peek. apply fails_palt; (rewrite pchar_err; [exact I|]); intro q; rewrite Er; intro Q; injection Q as Q _; revert Q; apply Nc; cbn; tauto. }
    apply got_palt_l. eapply got_at.
    apply (got_peeked s _ dec 1 _ _ (fun y => y = c)); [|exact Hd].
    assert (Sr : sees s (c :: r)) by (split; [apply H|exact Er]). clear -Sr Hc. cbn in Hc.
    assert (Z : forall c', c <> c' -> fails (pchar c' s)) by (intros c' N; rewrite pchar_err; [exact I|]; intro q; rewrite (proj2 Sr); congruence).
    cbn [alt]. repeat (destruct Hc as [<-|Hc];
      [repeat (apply got_palt_r; [apply Z; discriminate|]); apply got_palt_l, got_eq, (pchar_run _ s r Sr)|]). destruct Hc.
  - (* a keyword *)
    assert (Hh : exists c r, remaining s = c :: r /\ In c [x54; x44; x53; x46; x58]).
    { rewrite E. destruct k; cbn; eexists; eexists; (split; [reflexivity|cbn; tauto]). }
    destruct Hh as (c & r & Er & Hc).
    assert (Nc : forall c', In c' [x25; x60; x24; x3a; x5b; x7b; x2a; x5f; x7e; x5e; x2c] -> c <> c') by (cbn in Hc; cbn; intuition congruence).
    assert (Z : forall c', In c' [x25; x60; x24; x3a; x5b; x7b; x2a; x5f; x7e; x5e; x2c] -> fails (pchar c' s)).
    { intros c' Hi. rewrite pchar_err; [exact I|]. intro q. rewrite Er. intro Q. injection Q as Q _. revert Q. now apply Nc. }
    do 4 (apply got_palt_r; [apply fails_pmap, fails_preceded, fails_peek, Z; cbn; tauto|]).
    apply got_palt_r; [apply fails_pmap, fails_preceded, fails_peek, fails_palt; apply Z; cbn; tauto|].
    apply got_palt_r; [apply fails_pmap, fails_preceded, fails_peek; do 5 (apply fails_palt; [apply Z; cbn; tauto|]); exact I|].
    apply got_palt_l. eapply got_pmap; [exact (keyword_run s k (next ++ tail) H)|]. intros x (_ & Hx). exact Hx.
  - (* a link *)
    assert (Hh : exists r, remaining s = x5b :: r \/ remaining s = x7b :: r).
    { rewrite E. destruct l; try contradiction; cbn; eexists; [left|left|left|left|right]; reflexivity. }
    destruct Hh as (r & Er).
    assert (Z : forall c', c' <> x5b -> c' <> x7b -> fails (pchar c' s)).
    { intros c' N1 N2. rewrite pchar_err; [exact I|]. intro q. destruct Er as [->| ->]; congruence. }
    do 4 (apply got_palt_r; [apply fails_pmap, fails_preceded, fails_peek, Z; discriminate|]).
    apply got_palt_l. eapply got_at.
    apply (got_peeked s _ _ 1 _ _ (fun y => True)); [|exact (link_run up dp lossy Hsch s l next tail H F Ht)].
    destruct Er as [Er|Er].
    + apply got_palt_l. rewrite (pchar_run x5b s r) by (split; [apply H|exact Er]). now apply got_ok.
    + apply got_palt_r; [rewrite pchar_err; [exact I|intro q; rewrite Er; discriminate]|].
      rewrite (pchar_run x7b s r) by (split; [apply H|exact Er]). now apply got_ok.
  - (* tags *)
    destruct F as (F1 & F2 & F3 & F4).
    do 3 (apply got_palt_r; [apply (peek_other x3a _ _ _ _ _ E); discriminate|]).
    apply got_palt_l. apply (Pk x3a _ _ _ _ _ _ _ E). cbn [lmap l_reg].
    eapply got_weaken; [apply (tags_run s ts (next ++ tail) before H C F2); auto|]; [now apply ws_after_tail|].
    cbv beta. intros x (_ & Hx). exact Hx.
  - (* code *)
    apply got_palt_r; [apply (peek_other x60 _ _ _ _ _ E); discriminate|].
    apply got_palt_l. apply (Pk x60 _ _ _ _ _ _ _ E). cbn [lmap l_reg].
    eapply got_weaken; [exact (code_inline_run s t (next ++ tail) H F)|]. cbv beta. intros x (_ & Hx). exact Hx.
  - (* a formula *)
    destruct F as (F1 & F2 & F3 & F4).
    do 2 (apply got_palt_r; [apply (peek_other x24 _ _ _ _ _ E); discriminate|]).
    apply got_palt_l. apply (Pk x24 _ _ _ _ _ _ _ E). cbn [lmap l_reg].
    eapply got_weaken; [exact (math_inline_run s t (next ++ tail) H F1 F2 F3 F4)|]. cbv beta. intros x (_ & Hx). exact Hx.
  - (* a comment *)
    destruct F as (-> & F1 & F2). apply got_palt_l. apply (Pk x25 _ _ _ _ _ _ _ E). cbn [lmap l_reg].
    eapply got_weaken; [apply (comment_run s t tail H K); eauto|]. cbv beta. intros x (_ & Hx). exact Hx.
Qed.
Lemma halts_item dec s before i next tail :
  sees s (inline_src i ++ next ++ tail) -> line_end tail -> inline_fine before i next -> ctxt s before ->
  (forall s', remaining_len s' <= remaining_len s -> dec_ok dec s') ->
  match i with
  | IText _ => False
  | ILink (LRaw _) => ws_before before
  | IComment (CLine t) => whole_line t tail
  | _ => True
  end -> halts (non_text_ up dp dec) s.
Proof.
  intros H Ht F C Hd K.
  assert (Z : match i with IText _ | ILink (LRaw _) => False | IComment (CLine t) => whole_line t tail | _ => True end -> halts (non_text_ up dp dec) s).
  { intro Z. eapply halts_got. exact (nt_run dec s before i next tail H Ht F C (Hd s (le_n _)) Z). }
  destruct i as [t|k cs|k|l|ts|t|t|[t|ls]]; try contradiction; try (apply Z; exact K).
  destruct l; try (apply Z; exact I). exact (halts_raw up dp lossy Hsch dec s d next tail before H Ht F C K Hd).
Qed.

(** * Decorated text *)

Definition dc_parser (dec : parser (located decorated)) : parser (located dcontent) :=
  alt [ pmap (p_link up dp) (lmap DCLink);
        pmap p_keyword (lmap DCKeyword);
        pmap dec (lmap (fun d => DCDeco (fst d) (snd d)));
        pmap (text_ (non_text_ up dp dec)) (lmap DCText) ].
Lemma text_start s t next tail before : sees s (t ++ next ++ tail) -> line_end tail -> text_fine before t next ->
  sees_none openers s /\ ~ web_head (remaining s).
Proof.
  intros H Ht (F1 & _ & _ & F4 & _). pose proof (quiet_tail _ _ _ F4 Ht) as Q. destruct (Q [] t eq_refl F1) as [Q1 Q2].
  split; [|now rewrite (proj2 H)]. intros w r Hw. rewrite (proj2 H). now apply Q1.
Qed.
Lemma link_none s : span_ok s -> sees_none openers s -> ~ web_head (remaining s) -> fails (p_link up dp s).
Proof. intros Hs No Nw. apply (link_no up dp Hsch); auto; intro r; apply No; cbn; tauto. Qed.
Lemma keyword_none s : sees_none openers s -> fails (p_keyword s).
Proof. intro No. apply keyword_no. intros k r. apply No. destruct k; cbn; tauto. Qed.
Lemma delims_none s : sees_none openers s -> sees_none delims s.
Proof. intro No. apply (sees_none_incl _ _ _ No). intros w Hw. cbn in *. tauto. Qed.
Lemma head_none s c r : remaining s = c :: r -> other_heads c openers = true -> sees_none openers s.
Proof. intros E H w q Hw. rewrite E. now apply (other_heads_spec c openers H). Qed.
Lemma end_none s tail : sees s tail -> line_end tail -> sees_none openers s /\ ~ web_head (remaining s).
Proof.
  intros H Ht. rewrite (proj2 H). destruct Ht as [->|[r ->]]; split.
  - intros w q Hw. rewrite (proj2 H). intro K. symmetry in K. apply app_eq_nil in K as [-> _]. cbn in Hw. intuition discriminate.
  - intros (w & q & K & _). destruct w; discriminate.
  - apply (head_none s b_nl r); [apply H|reflexivity].
  - apply not_web. intro K. vm_compute in K. intuition discriminate.
Qed.

Lemma dc_run dec s x before next :
  sees s (dc_src x ++ next) -> dc_fine before x next -> ctxt s before ->
  (forall s', remaining_len s' <= remaining_len s -> dec_ok dec s') ->
  (forall t, x = DCText t -> halts (non_text_ up dp dec) (mv (length t) s)) ->
  got s (dc_parser dec s) (length (dc_src x)) (fun y => same_dc (l_val y) x).
Proof.
  intros H F C Hd Hh. pose proof (sees_ok _ _ H) as Hs.
  assert (Hn : sees s (dc_src x ++ next ++ [])) by now rewrite app_nil_r.
  assert (L0 : line_end []) by now left.
  unfold dc_parser. cbn [alt]. destruct x as [t|k cs|k|l]; cbn [SpecRound.dc_fine] in F.
  - cbn [SpecRound.dc_src] in *. destruct (text_start s t next [] before Hn L0 F) as [No Nw].
    apply got_palt_r; [apply fails_pmap; now apply link_none|].
    apply got_palt_r; [apply fails_pmap; now apply keyword_none|].
    apply got_palt_r; [apply fails_pmap, (Hd s (le_n _)); [exact Hs|now apply delims_none]|].
    apply got_palt_l. eapply got_pmap; [exact (text_run up dp lossy Hsch dec s t next [] before Hn L0 F C Hd (Hh t eq_refl))|].
    cbv beta. intros y [E _] cu. cbn. now rewrite E.
  - assert (Hh' : exists c r, remaining s = c :: r /\ In c [x2a; x5f; x7e; x5e; x2c]).
    { rewrite (proj2 H). cbn [SpecRound.dc_src]. destruct k; cbn; eexists; eexists; (split; [reflexivity|cbn; tauto]). }
    destruct Hh' as (c & r & Er & Hc).
    apply got_palt_r.
    { apply fails_pmap, (link_no up dp Hsch); auto.
      - intros q. rewrite Er. intro K. injection K as -> _. cbn in Hc. intuition discriminate.
      - intros q. rewrite Er. intro K. injection K as -> _. cbn in Hc. intuition discriminate.
      - rewrite Er. apply not_web. intro K. cbn in Hc. repeat (destruct Hc as [<-|Hc]; [vm_compute in K; intuition discriminate|]). destruct Hc. }
    apply got_palt_r.
    { apply fails_pmap, keyword_no. intros kw q. rewrite Er. intro K. destruct kw; injection K as -> _; cbn in Hc; intuition discriminate. }
    apply got_palt_l. eapply got_pmap; [exact (proj1 (Hd s (le_n _)) k cs before next [] Hn L0 C F)|].
    cbv beta. intros [[k' cs'] rg] [[E1 E2] _] cu. cbn [l_val fst snd] in E1, E2. subst k'.
    change (DCDeco k (map (n_loc nowhere (n_dc cu nowhere)) cs') = DCDeco k (map (n_loc nowhere (n_dc cu nowhere)) cs)). now rewrite E2.
  - apply got_palt_r.
    { apply fails_pmap, (link_no up dp Hsch); auto; rewrite (proj2 H); cbn [SpecRound.dc_src].
      - intros q. destruct k; discriminate.
      - intros q. destruct k; discriminate.
      - apply (kw_no_web dp lossy). }
    apply got_palt_l. eapply got_pmap; [exact (keyword_run s k next H)|]. cbv beta. intros y [E _] cu. cbn. now rewrite E.
  - apply got_palt_l. eapply got_pmap; [exact (link_run up dp lossy Hsch s l next [] Hn F L0)|].
    cbv beta. intros y [E _] cu. cbn. now rewrite E.
Qed.
Lemma dc_pos x before next : dc_fine before x next -> 0 < length (dc_src x).
Proof.
  destruct x as [t|k cs|k|l]; cbn [SpecRound.dc_fine SpecRound.dc_src]; intro F.
  - destruct F as (F & _). destruct t; [congruence|cbn; lia].
  - rewrite app_length. destruct k; cbn; lia.
  - destruct k; cbn; lia.
  - destruct (link_head l next F) as (c & r & ->). cbn. lia.
Qed.
Lemma dcs_src_cons x cs : dcs_src (x :: cs) = dc_src (l_val x) ++ dcs_src cs.
Proof. reflexivity. Qed.
Lemma dcs_halts dec s t x cs before : x = DCText t -> sees s (dc_src x ++ dcs_src cs) -> ctxt s before -> dc_fine before x (dcs_src cs) ->
  dcs_fine (before ++ dc_src x) cs -> match cs with y :: _ => beside x (l_val y) | [] => True end ->
  (forall s', remaining_len s' <= remaining_len s -> dec_ok dec s') -> halts (non_text_ up dp dec) (mv (length t) s).
Proof.
  intros -> H C F Fs B Hd. cbn [SpecRound.dc_src] in *. pose proof (sees_mv _ _ _ H) as H1. destruct cs as [|y cs].
  - apply (halts_end _ _ []); [exact H1|now left].
  - destruct Fs as [Fy _]. rewrite dcs_src_cons in *.
    assert (Hd1 : forall s', remaining_len s' <= remaining_len (mv (length t) s) -> dec_ok dec s').
    { intros s' L. apply Hd. rewrite (sees_len _ _ H1) in L. rewrite (sees_len _ _ H), app_length. lia. }
    apply (halts_item dec _ (before ++ t) (as_inline (l_val y)) (dcs_src cs) []); auto.
    + rewrite app_nil_r. destruct (l_val y); exact H1.
    + now left.
    + destruct (l_val y); exact Fy.
    + exact (ctxt_mv _ _ _ _ H C).
    + destruct (l_val y) as [t'|k cs'|k|l]; cbn in B |- *; auto. destruct l; auto. destruct F as (F & _).
      destruct B as [->|(a & c & -> & Hc)]; [congruence|]. right. exists (before ++ a), c. now rewrite app_assoc.
Qed.
Lemma dcs_run dec cs : forall s before, sees s (dcs_src cs) -> ctxt s before -> dcs_fine before cs -> neighbours beside cs ->
  (forall s', remaining_len s' <= remaining_len s -> dec_ok dec s') ->
  got s (many0 (dc_parser dec) s) (length (dcs_src cs)) (fun l => same_dcs l cs).
Proof.
  induction cs as [|x cs IH]; intros s before H C F B Hd.
  - eapply got_weaken; [apply got_many0_nil|cbv beta; intros l -> cu; reflexivity].
    destruct (end_none s [] H (or_introl eq_refl)) as [No Nw]. unfold dc_parser. cbn [alt].
    apply fails_palt; [apply fails_pmap; apply link_none; auto; apply H|].
    apply fails_palt; [apply fails_pmap; now apply keyword_none|].
    apply fails_palt; [apply fails_pmap, (Hd s (le_n _)); [apply H|now apply delims_none]|].
    apply fails_palt; [apply fails_pmap, (text_none up dp dec s [] H); now left|exact I].
  - destruct F as [Fx Fs]. destruct B as [B Bs]. rewrite dcs_src_cons in *. rewrite app_length.
    pose proof (sees_mv _ _ _ H) as H1.
    eapply got_weaken; [apply (got_many0_cons s _ _ (length (dc_src (l_val x))) (length (dcs_src cs)) (fun y => same_dc (l_val y) (l_val x)) (fun l => same_dcs l cs) H)|].
    + rewrite app_length. lia.
    + exact (dc_pos _ _ _ Fx).
    + apply (dc_run dec s (l_val x) before (dcs_src cs)); auto. intros t Et.
      apply (dcs_halts dec s t (l_val x) cs before); auto.
    + apply (IH _ (before ++ dc_src (l_val x))); auto.
      * exact (ctxt_mv _ _ _ _ H C).
      * intros s' L. apply Hd. rewrite (sees_len _ _ H1) in L. rewrite (sees_len _ _ H), app_length. lia.
    + cbv beta. intros l (y & l' & -> & Hy & Hl) cu. cbn [map]. f_equal; [|apply Hl]. unfold n_loc. f_equal. apply Hy.
Qed.
Lemma dcs1_run dec x cs s before : sees s (dcs_src (x :: cs)) -> ctxt s before -> dcs_fine before (x :: cs) -> neighbours beside (x :: cs) ->
  (forall s', remaining_len s' <= remaining_len s -> dec_ok dec s') ->
  got s (decorated_text_contents_ up dp dec s) (length (dcs_src (x :: cs))) (fun l => same_dcs l (x :: cs)).
Proof.
  intros H C [Fx Fs] [B Bs] Hd. rewrite dcs_src_cons in *. rewrite app_length. pose proof (sees_mv _ _ _ H) as H1.
  eapply got_weaken; [apply (got_many1 s (dc_parser dec) (length (dc_src (l_val x))) (length (dcs_src cs)) (fun y => same_dc (l_val y) (l_val x)) (fun l => same_dcs l cs))|].
  - apply (dc_run dec s (l_val x) before (dcs_src cs)); auto. intros t Et.
    apply (dcs_halts dec s t (l_val x) cs before); auto.
  - apply (dcs_run dec cs _ (before ++ dc_src (l_val x))); auto.
    + exact (ctxt_mv _ _ _ _ H C).
    + intros s' L. apply Hd. rewrite (sees_len _ _ H1) in L. rewrite (sees_len _ _ H), app_length. lia.
  - cbv beta. intros l (y & l' & -> & Hy & Hl) cu. cbn [map]. f_equal; [|apply Hl]. unfold n_loc. f_equal. apply Hy.
Qed.
Lemma dec_run f : forall s, remaining_len s < f -> dec_ok (decorated_text up dp f) s.
Proof.
  induction f as [|f IH]; intros s L; [lia|]. split.
  - intros k cs before next tail H Ht C F. cbn [decorated_text].
    apply (got_located_at s _ _ (fun d => fst d = k /\ same_dcs (snd d) cs)).
    rewrite dc_fine_deco in F. destruct F as (F1 & F2 & F3). pose proof F1 as (N1 & _).
    assert (H0 : sees s (delim_of k ++ dcs_src cs ++ delim_of k ++ next ++ tail)).
    { cbn [SpecRound.dc_src] in H. rewrite <- !app_assoc in H. exact H. }
    destruct cs as [|x cs]; [now elim N1|].
    assert (Le : length (dcs_src (x :: cs)) < f).
    { rewrite (sees_len _ _ H0), !app_length in L. destruct k; cbn [delim_of bs length] in L; cbn in L |- *; lia. }
    assert (R : got s (deco_text up dp k (delim_of k) (decorated_text up dp f) s) (length (dc_src (DCDeco k (x :: cs))))
                 (fun d => fst d = k /\ same_dcs (snd d) (x :: cs))).
    { unfold deco_text. apply (got_pmap s _ _ _ (fun l => same_dcs l (x :: cs))); [|intros l Hl; split; auto].
      eapply (got_map_parser s).
      - apply (surround_run (delim_of k) (delim_of k) (dcs_src (x :: cs)) (next ++ tail) s H0 F1); destruct k; try discriminate; try (cbn; lia); nonl.
      - pose proof (within_sees _ _ _ _ H0) as W. apply got_deeper.
        apply (dcs1_run (decorated_text up dp f) x cs _ (before ++ delim_of k)); auto.
        + apply ctxt_deeper. exact (ctxt_within _ _ _ _ _ H0 C).
        + intros s' Ls. apply IH. rewrite (sees_len _ _ (sees_deeper _ _ W)) in Ls. lia. }
    assert (Z : forall k', delim_of k' <> delim_of k -> fails (deco_text up dp k' (delim_of k') (decorated_text up dp f) s)).
    { intros k' N. unfold deco_text. apply fails_pmap, fails_map_parser, surround_no. intros r K. rewrite (proj2 H0) in K.
      destruct k, k'; try (now elim N); discriminate K. }
    cbn [alt]. destruct k.
    + apply got_palt_l. exact R.
    + apply got_palt_r; [apply (Z Bold); discriminate|]. apply got_palt_l. exact R.
    + apply got_palt_r; [apply (Z Bold); discriminate|]. apply got_palt_r; [apply (Z Italic); discriminate|]. apply got_palt_l. exact R.
    + apply got_palt_r; [apply (Z Bold); discriminate|]. apply got_palt_r; [apply (Z Italic); discriminate|].
      apply got_palt_r; [apply (Z Strikeout); discriminate|]. apply got_palt_l. exact R.
    + apply got_palt_r; [apply (Z Bold); discriminate|]. apply got_palt_r; [apply (Z Italic); discriminate|].
      apply got_palt_r; [apply (Z Strikeout); discriminate|]. apply got_palt_r; [apply (Z Superscript); discriminate|].
      apply got_palt_l. exact R.
  - intros Hs No. cbn [decorated_text]. apply fails_located, fails_alt.
    repeat constructor; unfold deco_text; apply fails_pmap, fails_map_parser, surround_no; intro r; apply No; cbn; tauto.
Qed.
Lemma dec_ok_eq dec dec' s : dec s = dec' s -> dec_ok dec s -> dec_ok dec' s.
Proof. intros E [H1 H2]. split; [intros k cs before next tail; rewrite <- E; apply H1|rewrite <- E; exact H2]. Qed.
Lemma p_decorated_ok s : dec_ok (p_decorated up dp) s.
Proof.
  apply (dec_ok_eq (fun s' => decorated_text up dp (S (remaining_len s)) s')); [reflexivity|].
  apply (dec_ok_eq (decorated_text up dp (S (remaining_len s)))); [reflexivity|].
  exact (dec_run (S (remaining_len s)) s (le_n _)).
Qed.

(** * Elements of a line *)

Definition same_cont (a b : container) : Prop := forall cu, n_cont cu nowhere a = n_cont cu nowhere b.
Lemma trimmed_no_cr t : t = bs " " ++ str_trim t -> no_cr_end t.
Proof.
  intros E x Ex. unfold str_trim in E. destruct (ProofVw.trim_end_spec (str_trim_start t)) as (w & _ & _ & N).
  set (k := str_trim_end (str_trim_start t)) in *. rewrite Ex in E. destruct (list_eq_dec byte_eq_dec k []) as [K|K].
  - rewrite K in E. change (x ++ [b_cr] = [] ++ [b_sp]) in E. apply app_inj_tail in E as [_ E]. discriminate.
  - destruct (exists_last K) as (y & c & Ek). rewrite Ek in E. change (x ++ [b_cr] = (bs " " ++ y) ++ [c]) in E.
    apply app_inj_tail in E as [_ <-]. apply N. rewrite Ek. exists [b_cr], y. split; [cbn; tauto|reflexivity].
Qed.
Lemma comment_line t tail : no_nl t -> t = bs " " ++ str_trim t -> line_end tail -> whole_line t tail.
Proof. intros H E Ht. repeat split; auto. right. now apply trimmed_no_cr. Qed.

Lemma inline_run s x before next tail :
  sees s (inline_src x ++ next ++ tail) -> line_end tail -> inline_fine before x next -> ctxt s before ->
  (forall t, x = IText t -> halts (non_text up dp) (mv (length t) s)) ->
  got s (inline_element up dp s) (length (inline_src x)) (fun y => same_inline (l_val y) x).
Proof.
  intros H Ht F C Hh. pose proof (sees_ok _ _ H) as Hs. pose proof (proj2 H) as E.
  assert (Hd : forall s', dec_ok (p_decorated up dp) s') by apply p_decorated_ok.
  unfold inline_element. cbn [alt].
  assert (Z1 : (forall r, remaining s <> bs "%%" ++ r) -> fails (pmap p_comment (lmap IComment) s)) by (intro N; now apply fails_pmap, comment_no).
  assert (Z2 : (forall r, remaining s <> bs "$" ++ r) -> fails (pmap math_inline (lmap IMath) s)) by (intro N; now apply fails_pmap, math_no).
  assert (Z3 : (forall r, remaining s <> bs "`" ++ r) -> fails (pmap code_inline (lmap ICode) s)) by (intro N; now apply fails_pmap, code_no).
  assert (Z4 : (forall r, remaining s <> bs ":" ++ r) -> fails (pmap tags (lmap ITags) s)) by (intro N; now apply fails_pmap, tags_head_no).
  assert (Hd6 : sees_none delims s -> fails (pmap (p_decorated up dp) (lmap (fun d => IDeco (fst d) (snd d))) s)).
  { intro N. apply fails_pmap. now apply (Hd s). }
  destruct x as [t|k cs|k|l|ts|t|t|[t|ls]]; cbn [SpecRound.inline_src SpecRound.inline_fine] in *; try contradiction.
  - (* text *)
    destruct (text_start s t next tail before H Ht F) as [No Nw].
    apply got_palt_r; [apply Z1; intro r; apply No; cbn; tauto|].
    apply got_palt_r; [apply Z2; intro r; apply No; cbn; tauto|].
    apply got_palt_r; [apply Z3; intro r; apply No; cbn; tauto|].
    apply got_palt_r.
    { destruct t as [|c t]; [now destruct F|]. destruct (byte_eq_dec c x3a) as [->|Nc].
      - apply fails_pmap. apply (tags_no s (t ++ next ++ tail) before H C). destruct F as (_ & _ & _ & _ & F5).
        destruct (F5 [] t eq_refl) as [K|K]; [left; now rewrite app_nil_r in K|right].
        rewrite app_assoc. now apply ws_after_tail.
      - apply Z4. intro r. rewrite E. cbn. congruence. }
    apply got_palt_r; [apply fails_pmap; now apply link_none|].
    apply got_palt_r; [apply Hd6; now apply delims_none|].
    apply got_palt_r; [apply fails_pmap; now apply keyword_none|].
    apply got_palt_l. eapply got_pmap; [exact (text_run up dp lossy Hsch (p_decorated up dp) s t next tail before H Ht F C (fun s' _ => Hd s') (Hh t eq_refl))|].
    cbv beta. intros y [Ey _] cu. cbn. now rewrite Ey.
  - (* decorated text *)
    assert (Hh' : exists c r, remaining s = c :: r /\ In c [x2a; x5f; x7e; x5e; x2c]).
    { rewrite E. cbn [SpecRound.dc_src]. destruct k; cbn; eexists; eexists; (split; [reflexivity|cbn; tauto]). }
    destruct Hh' as (c & r & Er & Hc).
    assert (Nc : forall w q, In w [bs "%%"; bs "$"; bs "`"; bs ":"; bs "[["; bs "{{"] -> remaining s <> w ++ q).
    { intros w q Hw. rewrite Er. apply (other_heads_spec c [bs "%%"; bs "$"; bs "`"; bs ":"; bs "[["; bs "{{"]); auto.
      cbn in Hc. repeat (destruct Hc as [<-|Hc]; [reflexivity|]). destruct Hc. }
    apply got_palt_r; [apply Z1; intro q; apply Nc; cbn; tauto|].
    apply got_palt_r; [apply Z2; intro q; apply Nc; cbn; tauto|].
    apply got_palt_r; [apply Z3; intro q; apply Nc; cbn; tauto|].
    apply got_palt_r; [apply Z4; intro q; apply Nc; cbn; tauto|].
    apply got_palt_r.
    { apply fails_pmap, (link_no up dp Hsch); auto; try (intro q; apply Nc; cbn; tauto).
      rewrite Er. apply not_web. intro K. cbn in Hc. repeat (destruct Hc as [<-|Hc]; [vm_compute in K; intuition discriminate|]). destruct Hc. }
    apply got_palt_l. eapply got_pmap; [exact (proj1 (Hd s) k cs before next tail H Ht C F)|].
    cbv beta. intros [[k' cs'] rg] [[E1 E2] _] cu. cbn [l_val fst snd] in E1, E2. subst k'.
    change (IDeco k (map (n_loc nowhere (n_dc cu nowhere)) cs') = IDeco k (map (n_loc nowhere (n_dc cu nowhere)) cs)). now rewrite E2.
  - (* a keyword *)
    assert (Hh' : exists c r, remaining s = c :: r /\ In c [x54; x44; x53; x46; x58]).
    { rewrite E. destruct k; cbn; eexists; eexists; (split; [reflexivity|cbn; tauto]). }
    destruct Hh' as (c & r & Er & Hc).
    assert (Nc : forall w q, In w [bs "%%"; bs "$"; bs "`"; bs ":"; bs "[["; bs "{{"; bs "*"; bs "_"; bs "~~"; bs "^"; bs ",,"] -> remaining s <> w ++ q).
    { intros w q Hw. rewrite Er. apply (other_heads_spec c [bs "%%"; bs "$"; bs "`"; bs ":"; bs "[["; bs "{{"; bs "*"; bs "_"; bs "~~"; bs "^"; bs ",,"]); auto.
      cbn in Hc. repeat (destruct Hc as [<-|Hc]; [reflexivity|]). destruct Hc. }
    apply got_palt_r; [apply Z1; intro q; apply Nc; cbn; tauto|].
    apply got_palt_r; [apply Z2; intro q; apply Nc; cbn; tauto|].
    apply got_palt_r; [apply Z3; intro q; apply Nc; cbn; tauto|].
    apply got_palt_r; [apply Z4; intro q; apply Nc; cbn; tauto|].
    apply got_palt_r.
    { apply fails_pmap, (link_no up dp Hsch); auto; try (intro q; apply Nc; cbn; tauto).
      rewrite E. apply (kw_no_web dp lossy). }
    apply got_palt_r; [apply Hd6; intros w q Hw; apply Nc; cbn in *; tauto|].
    apply got_palt_l. eapply got_pmap; [exact (keyword_run s k (next ++ tail) H)|]. cbv beta. intros y [Ey _] cu. cbn. now rewrite Ey.
  - (* a link *)
    destruct (link_head l next F) as (c & r & El).
    assert (Hc : In (lower c) [x5b; x7b; x68; x66; x6c; x6d]).
    { destruct l; try (cbn in El; injection El as <- _; cbn; tauto). destruct F as ((sc & S1 & S2) & U & _).
      destruct (web_scheme_head up dp lossy Hsch _ _ _ U S1 S2) as (c' & t & E' & K). cbn in El. rewrite E' in El. injection El as <- _.
      cbn in K |- *. tauto. }
    assert (Nc : forall w q, In w [bs "%%"; bs "$"; bs "`"; bs ":"] -> remaining s <> w ++ q).
    { intros w q Hw. rewrite E, El. cbn [app]. intro K.
      assert (X : In c [x25; x24; x60; x3a]) by (cbn in Hw; repeat (destruct Hw as [<-|Hw]; [cbn in K; injection K as -> _; cbn; tauto|]); destruct Hw).
      cbn in X. repeat (destruct X as [<-|X]; [vm_compute in Hc; intuition discriminate|]). destruct X. }
    apply got_palt_r; [apply Z1; intro q; apply Nc; cbn; tauto|].
    apply got_palt_r; [apply Z2; intro q; apply Nc; cbn; tauto|].
    apply got_palt_r; [apply Z3; intro q; apply Nc; cbn; tauto|].
    apply got_palt_r; [apply Z4; intro q; apply Nc; cbn; tauto|].
    apply got_palt_l. eapply got_pmap; [exact (link_run up dp lossy Hsch s l next tail H F Ht)|]. cbv beta. intros y [Ey _] cu. cbn. now rewrite Ey.
  - (* tags *)
    destruct F as (F1 & F2 & F3 & F4).
    apply got_palt_r; [apply Z1; intro q; rewrite E; discriminate|].
    apply got_palt_r; [apply Z2; intro q; rewrite E; discriminate|].
    apply got_palt_r; [apply Z3; intro q; rewrite E; discriminate|].
    apply got_palt_l. eapply got_pmap; [apply (tags_run s ts (next ++ tail) before H C F2); auto; now apply ws_after_tail|].
    cbv beta. intros y [Ey _] cu. cbn. now rewrite Ey.
  - (* code *)
    apply got_palt_r; [apply Z1; intro q; rewrite E; discriminate|].
    apply got_palt_r; [apply Z2; intro q; rewrite E; discriminate|].
    apply got_palt_l. eapply got_pmap; [exact (code_inline_run s t (next ++ tail) H F)|]. cbv beta. intros y [Ey _] cu. cbn. now rewrite Ey.
  - (* a formula *)
    destruct F as (F1 & F2 & F3 & F4).
    apply got_palt_r; [apply Z1; intro q; rewrite E; discriminate|].
    apply got_palt_l. eapply got_pmap; [exact (math_inline_run s t (next ++ tail) H F1 F2 F3 F4)|]. cbv beta. intros y [Ey _] cu. cbn. now rewrite Ey.
  - (* a comment *)
    destruct F as (-> & F1 & F2). apply got_palt_l. eapply got_pmap; [apply (comment_run s t tail H); [now apply comment_line|eauto]|].
    cbv beta. intros y [Ey _] cu. cbn. now rewrite Ey.
Qed.
Lemma inline_none s tail : sees s tail -> line_end tail -> fails (inline_element up dp s).
Proof.
  intros H Ht. destruct (end_none s tail H Ht) as [No Nw]. pose proof (sees_ok _ _ H) as Hs. unfold inline_element. cbn [alt].
  apply fails_palt; [apply fails_pmap, comment_no; intro r; apply No; cbn; tauto|].
  apply fails_palt; [apply fails_pmap, math_no; intro r; apply No; cbn; tauto|].
  apply fails_palt; [apply fails_pmap, code_no; intro r; apply No; cbn; tauto|].
  apply fails_palt; [apply fails_pmap, tags_head_no; auto; intro r; rewrite (proj2 H); destruct Ht as [->|[q ->]]; discriminate|].
  apply fails_palt; [apply fails_pmap; now apply link_none|].
  apply fails_palt; [apply fails_pmap, (p_decorated_ok s); [exact Hs|now apply delims_none]|].
  apply fails_palt; [apply fails_pmap; now apply keyword_none|].
  apply fails_palt; [apply fails_pmap, (text_none up dp (p_decorated up dp) s tail H Ht)|exact I].
Qed.
Lemma inline_pos x before next : inline_fine before x next -> 0 < length (inline_src x).
Proof.
  destruct x as [t|k cs|k|l|ts|t|t|[t|ls]]; cbn [SpecRound.inline_fine SpecRound.inline_src]; intro F; try contradiction; try (cbn; lia).
  - exact (dc_pos (DCText t) before next F).
  - exact (dc_pos (DCDeco k cs) before next F).
  - exact (dc_pos (DCKeyword k) before next F).
  - exact (dc_pos (DCLink l) before next F).
Qed.
Lemma cont_src_cons x c : cont_src (x :: c) = inline_src (l_val x) ++ cont_src c.
Proof. reflexivity. Qed.
Lemma items_halts s t x c before tail : x = IText t -> sees s (inline_src x ++ cont_src c ++ tail) -> line_end tail -> ctxt s before ->
  inline_fine before x (cont_src c) -> items_fine (before ++ inline_src x) c ->
  match c with y :: _ => beside_i x (l_val y) | [] => True end -> halts (non_text up dp) (mv (length t) s).
Proof.
  intros -> H Ht C F Fs B. cbn [SpecRound.inline_src] in *. pose proof (sees_mv _ _ _ H) as H1. destruct c as [|y c].
  - apply (halts_end _ _ tail); [exact H1|exact Ht].
  - destruct Fs as [Fy _]. rewrite cont_src_cons in *. rewrite <- app_assoc in *.
    apply (halts_item (p_decorated up dp) _ (before ++ t) (l_val y) (cont_src c) tail); auto.
    + exact (ctxt_mv _ _ _ _ H C).
    + intros s' _. apply p_decorated_ok.
    + destruct (l_val y) as [t'|k cs'|k|l|ts|t'|t'|[t'|ls]]; cbn in B |- *; auto.
      * destruct l; auto. destruct F as (F & _).
        destruct B as [->|(a & b & -> & Hc)]; [congruence|]. right. exists (before ++ a), b. now rewrite app_assoc.
      * destruct Fy as (_ & F1 & F2). now apply comment_line.
Qed.
Lemma items_step x c s before tail : sees s (cont_src (x :: c) ++ tail) -> line_end tail -> ctxt s before ->
  items_fine before (x :: c) -> neighbours beside_i (x :: c) ->
  got s (deeper (inline_element up dp) s) (length (inline_src (l_val x))) (fun y => same_inline (l_val y) (l_val x)).
Proof.
  intros H Ht C [Fx Fs] [B Bs]. rewrite cont_src_cons, <- app_assoc in H. apply sees_deeper in H.
  apply got_deeper. apply (inline_run _ _ before (cont_src c) tail); auto. intros t Et.
  now apply (items_halts (with_deeper s) t (l_val x) c before tail).
Qed.
Lemma items_run c : forall s before tail, sees s (cont_src c ++ tail) -> line_end tail -> ctxt s before ->
  items_fine before c -> neighbours beside_i c ->
  got s (many0 (deeper (inline_element up dp)) s) (length (cont_src c)) (fun l => same_cont l c).
Proof.
  induction c as [|x c IH]; intros s before tail H Ht C F B.
  - eapply got_weaken; [apply got_many0_nil|cbv beta; intros l -> cu; reflexivity].
    apply fails_deeper, (inline_none _ tail); [exact (sees_deeper _ _ H)|exact Ht].
  - pose proof (items_step x c s before tail H Ht C F B) as S. destruct F as [Fx Fs]. destruct B as [B Bs].
    rewrite cont_src_cons in *. rewrite <- app_assoc in H. rewrite app_length. pose proof (sees_mv _ _ _ H) as H1.
    eapply got_weaken; [apply (got_many0_cons s _ _ (length (inline_src (l_val x))) (length (cont_src c)) (fun y => same_inline (l_val y) (l_val x)) (fun l => same_cont l c) H)|].
    + rewrite app_length. lia.
    + exact (inline_pos _ _ _ Fx).
    + exact S.
    + apply (IH _ (before ++ inline_src (l_val x)) tail); auto. exact (ctxt_mv _ _ _ _ H C).
    + cbv beta. intros l (y & l' & -> & Hy & Hl) cu. unfold n_cont in *. cbn [map]. f_equal; [|apply Hl]. unfold n_loc. f_equal. apply Hy.
Qed.
(** A line of elements, read by the parser of containers. *)
Theorem container_after c s tail before : sees s (cont_src c ++ tail) -> line_end tail -> ctxt s before ->
  c <> [] -> items_fine before c -> neighbours beside_i c ->
  got s (inline_element_container up dp s) (length (cont_src c)) (fun x => same_cont (l_val x) c).
Proof.
  intros H Ht C N F B. destruct c as [|x c]; [congruence|].
  unfold inline_element_container. apply (got_located s (many1 (deeper (inline_element up dp))) (length (cont_src (x :: c))) (fun l => same_cont l (x :: c))).
  pose proof (items_step x c s before tail H Ht C F B) as S. destruct F as [Fx Fs]. destruct B as [B Bs].
  rewrite cont_src_cons in *. rewrite <- app_assoc in H. rewrite app_length. pose proof (sees_mv _ _ _ H) as H1.
  eapply got_weaken; [apply (got_many1 s _ (length (inline_src (l_val x))) (length (cont_src c)) (fun y => same_inline (l_val y) (l_val x)) (fun l => same_cont l c))|].
  - exact S.
  - apply (items_run c _ (before ++ inline_src (l_val x)) tail); auto. exact (ctxt_mv _ _ _ before H C).
  - cbv beta. intros l (y & l' & -> & Hy & Hl) cu. unfold n_cont in *. cbn [map]. f_equal; [|apply Hl]. unfold n_loc. f_equal. apply Hy.
Qed.
Theorem container_run c s tail : sees s (cont_src c ++ tail) -> line_end tail -> ctxt s [] ->
  c <> [] -> items_fine [] c -> neighbours beside_i c ->
  got s (inline_element_container up dp s) (length (cont_src c)) (fun x => same_cont (l_val x) c).
Proof. exact (container_after c s tail []). Qed.
End Line.
