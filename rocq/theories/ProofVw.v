(** The trimming operations of the vimwiki formatter. *)
From Coq Require Import Lia Arith.
From Verif Require Import Base ModelSpan ModelAst ModelTable ModelLink ModelBlock ModelElem ModelVimwiki
  SpecTree SpecElem SpecVw ProofBase ProofEnv ProofClaims2 ProofWhite.

(** * [thin] *)

Lemma thin_valid a b : thin a b -> valid_utf8 a /\ valid_utf8 b.
Proof.
  induction 1 as [|c a b Hc H [IH1 IH2]|w a b Hw H [IH1 IH2]].
  - split; apply valid_nil.
  - split; apply valid_app; auto; now apply valid_char.
  - split; auto. apply valid_app; auto. apply valid_char. now apply white_utf8.
Qed.
Lemma thin_refl a : valid_utf8 a -> thin a a.
Proof.
  intros (cs & H & ->). induction H; cbn [concat]; [constructor|]. now apply thin_keep.
Qed.
Lemma thin_app a b c d : thin a b -> thin c d -> thin (a ++ c) (b ++ d).
Proof.
  intros H H'. induction H; cbn [app]; auto; rewrite <- ?app_assoc.
  - now apply thin_keep.
  - now apply thin_drop.
Qed.
Lemma thin_inv a c b : utf8_char c -> thin a (c ++ b) ->
  (exists a', a = c ++ a' /\ thin a' b) \/ (white_char c /\ thin a b).
Proof.
  intros Hc H. inversion H as [E1 E2|c' a' b' Hc' H' E1 E2|w a' b' Hw H' E1 E2]; subst.
  - symmetry in E2. apply app_eq_nil in E2 as [-> _]. now apply char_ne in Hc.
  - apply char_prefix in E2 as [-> ->]; eauto.
  - apply char_prefix in E2 as [-> ->]; auto. now apply white_utf8.
Qed.
Lemma thin_trans a b c : thin a b -> thin b c -> thin a c.
Proof.
  intros H H'. revert a H. induction H' as [|x b c Hx H' IH|w b c Hw H' IH]; intros a H; auto.
  - apply thin_inv in H as [(a' & -> & H)|[Hw H]]; auto.
    + apply thin_keep; auto.
    + apply thin_drop; auto.
  - apply thin_drop; auto.
Qed.
Lemma blank_app a b : blank a -> blank b -> blank (a ++ b).
Proof. intros H H'. apply (thin_app [] a [] b H H'). Qed.
Lemma blank_white w : white_char w -> blank w.
Proof. intro H. rewrite <- (app_nil_r w). apply thin_drop; auto. constructor. Qed.
Lemma blank_cases a : blank a -> a = [] \/ exists w r, white_char w /\ a = w ++ r /\ blank r.
Proof.
  unfold blank. intro H. inversion H as [E1 E2|c x y Hc H' E1 E2|w x y Hw H' E1 E2]; subst; auto.
  - symmetry in E1. symmetry in E1. apply app_eq_nil in E1 as [-> _]. now apply char_ne in Hc.
  - right. eauto.
Qed.
Lemma blank_ind' (P : str -> Prop) : P [] ->
  (forall w r, white_char w -> blank r -> P r -> P (w ++ r)) -> forall a, blank a -> P a.
Proof.
  intros H0 H1 a. remember (length a) as n eqn:E. revert a E.
  induction n as [n IH] using lt_wf_ind. intros a -> H.
  destruct (blank_cases a H) as [->|(w & r & Hw & -> & Hr)]; auto. apply H1; auto.
  apply (IH (length r)); auto. rewrite app_length. pose proof (white_ne w Hw). destruct w; [easy|cbn; lia].
Qed.

(** * [trim_start], [trim_end] *)

Lemma no_white_start l : uws_len l = 0 -> ~ starts_white l.
Proof. intros E (w & r & Hw & ->). rewrite uws_len_white in E by auto. apply white_ne in Hw. now destruct w. Qed.
Lemma no_white_end l : uws_len_rev (rev l) = 0 -> ~ ends_white l.
Proof.
  intros E (w & r & Hw & ->). rewrite rev_app_distr, uws_len_rev_white in E by auto.
  apply white_ne in Hw. now destruct w.
Qed.
Lemma drop_start n l : length l <= n ->
  exists w, l = w ++ drop_uws uws_len n l /\ blank w /\ ~ starts_white (drop_uws uws_len n l).
Proof.
  revert l. induction n as [|n IH]; intros l L; cbn [drop_uws].
  - destruct l; [|cbn in L; lia]. exists []. repeat split; [constructor|].
    intros (w & r & Hw & E). apply white_ne in Hw. symmetry in E. apply app_eq_nil in E as [-> _]. easy.
  - destruct (uws_len_spec l) as [E|(w & r & Hw & E & E')].
    + rewrite E. exists []. repeat split; [constructor|]. now apply no_white_start.
    + rewrite E'. pose proof (white_ne w Hw). destruct (length w) as [|k] eqn:Ek; [now destruct w|].
      subst l. rewrite <- Ek, skipn_app, skipn_all, Nat.sub_diag. cbn [skipn app].
      destruct (IH r) as (w' & E1 & E2 & E3); [rewrite app_length in L; lia|].
      exists (w ++ w'). repeat split; auto.
      * rewrite <- app_assoc. now rewrite <- E1.
      * apply blank_app; auto. now apply blank_white.
Qed.
Lemma trim_start_spec l : exists w, l = w ++ str_trim_start l /\ blank w /\ ~ starts_white (str_trim_start l).
Proof. apply drop_start. auto. Qed.
Lemma drop_end n l : length l <= n ->
  exists w, l = drop_uws uws_len_rev n l ++ [] /\ False \/ 
  (rev l = rev (drop_uws uws_len_rev n l) ++ w /\ blank w /\ ~ ends_white (rev (drop_uws uws_len_rev n l))).
Proof.
  revert l. induction n as [|n IH]; intros l L; cbn [drop_uws].
  - destruct l; [|cbn in L; lia]. exists []. right. repeat split; [constructor|].
    intros (w & r & Hw & E). apply white_ne in Hw. symmetry in E. apply app_eq_nil in E as [_ ->]. easy.
  - destruct (uws_len_rev_spec l) as [E|(w & r & Hw & E & E')].
    + rewrite E. exists []. right. rewrite app_nil_r. repeat split; [constructor|].
      apply no_white_end. now rewrite rev_involutive.
    + rewrite E'. pose proof (white_ne w Hw). destruct (length w) as [|k] eqn:Ek; [now destruct w|].
      subst l. rewrite <- Ek, <- rev_length, skipn_app, skipn_all, Nat.sub_diag. cbn [skipn app].
      destruct (IH r) as (w' & [[_ []]|(E1 & E2 & E3)]); [rewrite app_length, rev_length in L; lia|].
      exists (w' ++ w). right. repeat split; auto.
      * rewrite rev_app_distr, rev_involutive, E1. now rewrite app_assoc.
      * apply blank_app; auto. now apply blank_white.
Qed.
Lemma trim_end_spec l : exists w, l = str_trim_end l ++ w /\ blank w /\ ~ ends_white (str_trim_end l).
Proof.
  unfold str_trim_end. destruct (drop_end (length l) (rev l)) as (w & [[_ []]|(E & H)]); [now rewrite rev_length|].
  rewrite rev_involutive in E. exists w. auto.
Qed.
Lemma trim_end_nil : str_trim_end [] = [].
Proof. reflexivity. Qed.

Lemma blank_valid w : blank w -> valid_utf8 w.
Proof. intro H. now apply thin_valid in H. Qed.
Lemma valid_blank_end a w : blank w -> valid_utf8 (a ++ w) -> valid_utf8 a.
Proof.
  intros H V. apply valid_cut in V; [easy|].
  destruct w as [|b w]; auto. eapply valid_head; [apply blank_valid, H|reflexivity].
Qed.
Lemma thin_trim_end l : valid_utf8 l -> thin (str_trim_end l) l.
Proof.
  intro V. destruct (trim_end_spec l) as (w & E & Hw & _).
  rewrite E at 2. rewrite <- (app_nil_r (str_trim_end l)) at 1. apply thin_app; auto.
  apply thin_refl. rewrite E in V. now apply valid_blank_end in V.
Qed.
Lemma thin_trim_start l : valid_utf8 l -> thin (str_trim_start l) l.
Proof.
  intro V. destruct (trim_start_spec l) as (w & E & Hw & _).
  rewrite E at 2. apply (thin_app [] w); auto. apply thin_refl.
  rewrite E in V. eapply valid_uncut; [exact V|]. now apply blank_valid.
Qed.

(** White space at the ends of concatenations. *)
Lemma starts_white_app a b : a <> [] -> valid_utf8 a -> starts_white (a ++ b) -> starts_white a.
Proof.
  intros N (cs & Hcs & ->) (w & r & Hw & E). destruct Hcs as [|c cs Hc Hcs]; [easy|].
  cbn [concat] in *. rewrite <- app_assoc in E. apply char_prefix in E as [-> _]; auto.
  - exists w, (concat cs). auto.
  - now apply white_utf8.
Qed.
Lemma ends_white_app a b : b <> [] -> valid_utf8 b -> ends_white (a ++ b) -> ends_white b.
Proof.
  intros N V (w & r & Hw & E). apply app_eq_app in E as [x [[-> ->]|[-> ->]]].
  - destruct x as [|x0 x].
    { exists b, []. auto. }
    exfalso. destruct b as [|y b]; [easy|]. pose proof (valid_head _ y b V eq_refl) as C.
    apply white_utf8 in Hw.
    destruct (valid_cut (x0 :: x) (y :: b) (valid_char _ Hw) C) as [(cs & Hcs & Ex) _].
    destruct Hcs as [|c cs Hc Hcs]; [easy|]. cbn [concat] in Ex.
    assert (P : c ++ (concat cs ++ y :: b) = ((x0 :: x) ++ y :: b) ++ [])
      by (rewrite app_nil_r, Ex; now rewrite <- app_assoc).
    apply char_prefix in P as [_ P]; auto. now apply app_eq_nil in P as [_ P].
  - exists w, x. auto.
Qed.
Lemma blank_split a b : valid_utf8 a -> blank (a ++ b) -> blank a /\ blank b.
Proof.
  intros (cs & Hcs & ->). induction Hcs as [|c cs Hc Hcs IH]; cbn [concat]; intro H.
  - split; [constructor|exact H].
  - rewrite <- app_assoc in H. apply thin_inv in H as [(a' & E & H)|[Hw H]]; auto.
    + symmetry in E. apply app_eq_nil in E as [-> _]. now apply char_ne in Hc.
    + apply IH in H as [H1 H2]. split; auto. apply blank_app; auto. now apply blank_white.
Qed.
Lemma blank_ends w : blank w -> w <> [] -> ends_white w.
Proof.
  intro H. induction H as [|w r Hw Hr IH] using blank_ind'; [easy|]. intros _.
  destruct r as [|x r]; [exists w, []; now rewrite app_nil_r|].
  destruct IH as (w' & r' & Hw' & E); [easy|]. exists w', (w ++ r'). rewrite E. now rewrite app_assoc.
Qed.
Lemma blank_starts w : blank w -> w <> [] -> starts_white w.
Proof. intros H N. destruct (blank_cases w H) as [->|(x & r & Hx & -> & _)]; [easy|]. exists x, r. auto. Qed.
Lemma trim_end_unique l x w : l = x ++ w -> blank w -> ~ ends_white x -> str_trim_end l = x.
Proof.
  intros El Hw Hx. destruct (trim_end_spec l) as (w' & E & Hw' & Hx').
  set (y := str_trim_end l) in *. clearbody y. subst l. rename E into E'.
  apply app_eq_app in E' as [q [[-> ->]|[-> ->]]].
  - destruct q as [|q0 q]; [now rewrite app_nil_r|]. exfalso. apply Hx.
    assert (V : valid_utf8 (q0 :: q)) by (eapply valid_blank_end; [exact Hw|now apply blank_valid]).
    apply blank_split in Hw' as [Hq _]; auto. destruct (blank_ends _ Hq) as (u & r & Hu & ->); [easy|].
    exists u, (y ++ r). now rewrite app_assoc.
  - destruct q as [|q0 q]; [now rewrite app_nil_r|]. exfalso. apply Hx'.
    assert (V : valid_utf8 (q0 :: q)) by (eapply valid_blank_end; [exact Hw'|now apply blank_valid]).
    apply blank_split in Hw as [Hq _]; auto. destruct (blank_ends _ Hq) as (u & r & Hu & ->); [easy|].
    exists u, (x ++ r). now rewrite app_assoc.
Qed.
Lemma trim_start_unique l x w : l = w ++ x -> valid_utf8 x -> blank w -> ~ starts_white x -> str_trim_start l = x.
Proof.
  intros El V Hw Hx. destruct (trim_start_spec l) as (w' & E & Hw' & Hx').
  set (y := str_trim_start l) in *. clearbody y. subst l. rename E into E'.
  apply app_eq_app in E' as [q [[-> ->]|[-> ->]]].
  - destruct q as [|q0 q]; auto. exfalso. apply Hx'.
    assert (Vq : valid_utf8 (q0 :: q)) by (eapply valid_uncut; [apply blank_valid, Hw|now apply blank_valid]).
    destruct (blank_split w' (q0 :: q)) as [_ Hq]; auto; [now apply blank_valid|].
    destruct (blank_starts _ Hq) as (u & r & Hu & ->); [easy|].
    exists u, (r ++ x). now rewrite app_assoc.
  - destruct q as [|q0 q]; auto. exfalso. apply Hx.
    assert (Vq : valid_utf8 (q0 :: q)) by (eapply valid_uncut; [apply blank_valid, Hw'|now apply blank_valid]).
    destruct (blank_split w (q0 :: q)) as [_ Hq]; auto; [now apply blank_valid|].
    destruct (blank_starts _ Hq) as (u & r & Hu & ->); [easy|].
    exists u, (r ++ y). now rewrite app_assoc.
Qed.

(** * Runs *)

Lemma veach_cons {A} (f : A -> vm) x l st : veach f (x :: l) st = (f x ;; veach f l) st.
Proof. reflexivity. Qed.
Lemma writes_plain ss c n : veach wr ss (Vst c n false) = VOk (Vst (c ++ concat ss) n false).
Proof.
  revert c. induction ss as [|s ss IH]; intro c; cbn [concat].
  - rewrite app_nil_r. reflexivity.
  - rewrite veach_cons. unfold vseq, wr at 1. cbn [v_skip v_content v_indent].
    rewrite IH. now rewrite <- app_assoc.
Qed.
Lemma writes_skip ss c n : Forall valid_utf8 ss ->
  exists w core b, veach wr ss (Vst c n true) = VOk (Vst (c ++ core) n b) /\
    concat ss = w ++ core /\ blank w /\ ~ starts_white core /\ valid_utf8 core.
Proof.
  intro H. revert c. induction H as [|s ss Hs Hss IH]; intro c.
  - exists [], [], true. cbn. rewrite app_nil_r. repeat split; try constructor.
    + intros (w & r & Hw & E). symmetry in E. apply app_eq_nil in E as [-> _]. now apply white_ne in Hw.
    + exists []. auto.
  - rewrite veach_cons. unfold vseq, wr at 1. cbn [v_skip v_content v_indent].
    destruct (trim_start_spec s) as (w & E & Hw & Hn).
    destruct (str_trim_start s) as [|x t] eqn:Et.
    + rewrite app_nil_r. destruct (IH c) as (w' & core & b & E1 & E2 & E3 & E4 & E5).
      exists (w ++ w'), core, b. rewrite E1. repeat split; auto.
      * cbn [concat]. rewrite E, E2. now rewrite app_nil_r, app_assoc.
      * now apply blank_app.
    + rewrite writes_plain. exists w, ((x :: t) ++ concat ss), false.
      rewrite <- !app_assoc. repeat split; auto.
      * cbn [concat]. rewrite E at 1. now rewrite <- app_assoc.
      * assert (Vt : valid_utf8 (x :: t)).
        { rewrite E in Hs. eapply valid_uncut; [exact Hs|now apply blank_valid]. }
        intro Z. apply Hn. eapply starts_white_app; [easy|exact Vt|exact Z].
      * apply valid_app.
        -- rewrite E in Hs. eapply valid_uncut; [exact Hs|now apply blank_valid].
        -- clear - Hss. induction Hss; cbn [concat]; [apply valid_nil|now apply valid_app].
Qed.

(** The exact effect of [and_trim] on a sequence of writes. *)
Lemma and_trim_exact ss c n b : Forall valid_utf8 ss ->
  exists core out, and_trim (veach wr ss) (Vst c n b) = VOk (Vst out n false) /\
    trimmed (concat ss) core /\
    (core <> [] -> out = c ++ core) /\
    (core = [] -> exists w, c = out ++ w /\ blank w /\ ~ ends_white out).
Proof.
  intro H. destruct (writes_skip ss c n H) as (w & mid & b' & E1 & E2 & E3 & E4 & V).
  destruct (trim_end_spec mid) as (w2 & Em & Hw2 & He).
  set (core := str_trim_end mid) in *.
  exists core, (str_trim_end (c ++ mid)). unfold and_trim, vseq, skip_whitespace, trim_end.
  cbn [v_content v_indent]. rewrite E1. cbn [v_content v_indent].
  assert (Vc : valid_utf8 core) by (rewrite Em in V; now apply valid_blank_end in V).
  assert (T : trimmed (concat ss) core).
  { exists w, w2. rewrite E2, Em at 1. repeat split; auto.
    intro Z. apply E4. rewrite Em. destruct Z as (u & r & Hu & ->). exists u, (r ++ w2). now rewrite app_assoc. }
  repeat split; auto.
  - intro N. apply trim_end_unique with (w := w2); auto.
    + rewrite Em at 1. now rewrite app_assoc.
    + intro Z. apply ends_white_app in Z; auto.
  - intro N. assert (Bm : blank mid) by (rewrite Em, N; exact Hw2).
    destruct mid as [|x mid].
    + rewrite app_nil_r. destruct (trim_end_spec c) as (u & Ec & Hu & Hn). eauto.
    + exfalso. apply E4. now apply blank_starts.
Qed.

(** * Sequences of operations *)

Fixpoint run_op (indent : str) (o : op) : vm :=
  match o with
  | OpWrite s => wr s
  | OpIndent => write_indent indent
  | OpTrimEnd => trim_end
  | OpIndented l => and_indent (veach (run_op indent) l)
  | OpSkip l => skip_whitespace (veach (run_op indent) l)
  | OpTrim l => and_trim (veach (run_op indent) l)
  end.

Definition says_all (indent : str) (k : nat) : list op -> str -> Prop :=
  fix go (l : list op) (t : str) : Prop :=
    match l with
    | [] => t = []
    | x :: l' => exists t1 t2, t = t1 ++ t2 /\ says indent k x t1 /\ go l' t2
    end.
Definition ops_valid : list op -> Prop :=
  fix go l := match l with [] => True | x :: l' => op_valid x /\ go l' end.

Lemma thin_step c t1 c1 t2 c2 : thin c1 (c ++ t1) -> thin c2 (c1 ++ t2) -> thin c2 (c ++ t1 ++ t2).
Proof.
  intros H H'. apply (thin_trans _ _ _ H'). rewrite app_assoc. apply thin_app; auto.
  apply thin_refl. apply thin_valid in H as [V _]. apply thin_valid in H' as [_ V'].
  eapply valid_uncut; eauto.
Qed.

Lemma writes_thin ss st : Forall valid_utf8 ss -> valid_utf8 (v_content st) ->
  exists st', veach wr ss st = VOk st' /\ v_indent st' = v_indent st /\
    thin (v_content st') (v_content st ++ concat ss).
Proof.
  intro H. revert st. induction H as [|s ss Hs Hss IH]; intros st V.
  - exists st. cbn. rewrite app_nil_r. repeat split. now apply thin_refl.
  - rewrite veach_cons. unfold vseq.
    assert (exists st1, wr s st = VOk st1 /\ v_indent st1 = v_indent st /\
              thin (v_content st1) (v_content st ++ s)) as (st1 & E & Ei & T).
    { unfold wr. destruct (v_skip st).
      - eexists. split; [reflexivity|]. cbn [v_content v_indent]. split; auto. apply thin_app; [now apply thin_refl|].
        now apply thin_trim_start.
      - eexists. split; [reflexivity|]. cbn [v_content v_indent]. split; auto. apply thin_refl. now apply valid_app. }
    rewrite E. destruct (IH st1) as (st2 & E2 & Ei2 & T2); [now apply thin_valid in T|].
    exists st2. rewrite E2, Ei2. repeat split; auto. cbn [concat]. eapply thin_step; eauto.
Qed.

Section Ops.
Variable indent : str.
Hypothesis Vi : valid_utf8 indent.

Definition op_thin (f : vm) (say : nat -> str -> Prop) : Prop :=
  forall st, valid_utf8 (v_content st) ->
  exists st' t, f st = VOk st' /\ v_indent st' = v_indent st /\ say (v_indent st) t /\
    thin (v_content st') (v_content st ++ t).

Lemma ops_thin_all : forall l,
  (forall o, In o l -> op_valid o -> op_thin (run_op indent o) (fun k => says indent k o)) ->
  ops_valid l -> op_thin (veach (run_op indent) l) (fun k => says_all indent k l).
Proof.
  induction l as [|o l IH]; intros H V st Vc.
  - exists st, []. cbn. rewrite app_nil_r. repeat split. now apply thin_refl.
  - destruct V as [Vo Vl]. rewrite veach_cons. unfold vseq.
    destruct (H o (or_introl eq_refl) Vo st Vc) as (st1 & t1 & E1 & I1 & S1 & T1). rewrite E1.
    destruct (IH (fun o' Hin => H o' (or_intror Hin)) Vl st1) as (st2 & t2 & E2 & I2 & S2 & T2);
      [now apply thin_valid in T1|].
    exists st2, (t1 ++ t2). rewrite E2, I2. repeat split; auto.
    + exists t1, t2. rewrite I1 in S2. auto.
    + eapply thin_step; eauto.
Qed.

Lemma op_ind' (P : op -> Prop) :
  (forall s, P (OpWrite s)) -> P OpIndent -> P OpTrimEnd ->
  (forall l, Forall P l -> P (OpIndented l)) -> (forall l, Forall P l -> P (OpSkip l)) ->
  (forall l, Forall P l -> P (OpTrim l)) -> forall o, P o.
Proof.
  intros H1 H2 H3 H4 H5 H6. fix IH 1. intros [s| | |l|l|l].
  - apply H1.
  - exact H2.
  - exact H3.
  - apply H4. induction l as [|x l IHl]; constructor; [apply IH|exact IHl].
  - apply H5. induction l as [|x l IHl]; constructor; [apply IH|exact IHl].
  - apply H6. induction l as [|x l IHl]; constructor; [apply IH|exact IHl].
Qed.

Lemma op_thin_run : forall o, op_valid o -> op_thin (run_op indent o) (fun k => says indent k o).
Proof.
  assert (L : forall l, Forall (fun o => op_valid o -> op_thin (run_op indent o) (fun k => says indent k o)) l ->
            ops_valid l -> op_thin (veach (run_op indent) l) (fun k => says_all indent k l)).
  { intros l Hl. apply ops_thin_all. exact (proj1 (Forall_forall _ _) Hl). }
  induction o as [s| | |l IH|l IH|l IH] using op_ind'; intro V.
  - clear L. intros st Vc. destruct (writes_thin [s] st) as (st' & E & Ei & T); auto.
    exists st', s. cbn [run_op]. cbn [concat] in T. rewrite app_nil_r in T.
    cbn [veach] in E. unfold vseq, vskip in E. destruct (wr s st) as [x|]; [|easy].
    injection E as ->. repeat split; auto.
  - clear L. intros st Vc. cbn [run_op]. unfold write_indent.
    assert (W : exists st' t, veach wr (repeat indent (v_indent st)) st = VOk st' /\ v_indent st' = v_indent st /\
              says indent (v_indent st) OpIndent t /\ thin (v_content st') (v_content st ++ t)).
    { destruct (writes_thin (repeat indent (v_indent st)) st) as (st' & E & Ei & T); auto.
      - apply Forall_forall. intros x Hx. apply repeat_spec in Hx. now subst.
      - exists st', (concat (repeat indent (v_indent st))). repeat split; auto. right. reflexivity. }
    assert (N : exists st' t, VOk st = VOk st' /\ v_indent st' = v_indent st /\
              says indent (v_indent st) OpIndent t /\ thin (v_content st') (v_content st ++ t)).
    { exists st, []. rewrite app_nil_r. repeat split; [now left|now apply thin_refl]. }
    destruct (v_content st) as [|b c] eqn:Ec; auto. destruct (ends_with_nl (b :: c)); auto.
  - clear L. intros st Vc. cbn [run_op]. exists (Vst (str_trim_end (v_content st)) (v_indent st) (v_skip st)), [].
    rewrite app_nil_r. repeat split. cbn [v_content]. now apply thin_trim_end.
  - assert (P : op_thin (veach (run_op indent) l) (fun k => says_all indent k l)).
    { apply L; auto. }
    clear L. intros st Vc. cbn [run_op]. unfold and_indent.
    destruct (P (Vst (v_content st) (v_indent st + 1) (v_skip st)) Vc) as (st' & t & E & Ei & S1 & T).
    rewrite E. exists (Vst (v_content st') (v_indent st' - 1) (v_skip st')), t.
    cbn [v_indent v_content] in *. repeat split; auto. rewrite Ei. lia.
  - assert (P : op_thin (veach (run_op indent) l) (fun k => says_all indent k l)).
    { apply L; auto. }
    clear L. intros st Vc. cbn [run_op]. unfold skip_whitespace.
    destruct (P (Vst (v_content st) (v_indent st) true) Vc) as (st' & t & E & Ei & S1 & T).
    rewrite E. exists (Vst (v_content st') (v_indent st') false), t.
    cbn [v_indent v_content] in *. auto.
  - assert (P : op_thin (veach (run_op indent) l) (fun k => says_all indent k l)).
    { apply L; auto. }
    clear L. intros st Vc. cbn [run_op]. unfold and_trim, vseq, skip_whitespace, trim_end.
    destruct (P (Vst (v_content st) (v_indent st) true) Vc) as (st' & t & E & Ei & S1 & T).
    rewrite E. exists (Vst (str_trim_end (v_content st')) (v_indent st') false), t.
    cbn [v_indent v_content] in *. repeat split; auto.
    eapply thin_trans; [apply thin_trim_end; now apply thin_valid in T|exact T].
Qed.
End Ops.
