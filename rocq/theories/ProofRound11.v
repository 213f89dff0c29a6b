(** Printing the blocks whose text is given in SpecRound. *)
From Verif Require Import Base ModelSpan ModelAst ModelLink ModelBlock ModelElem ModelTable ModelVimwiki SpecDoc SpecBlock SpecTree SpecElem SpecVw SpecEq SpecRound
  ProofBase ProofTree ProofTable ProofElem ProofElem2 ProofEnv ProofClaims2 ProofWhite ProofVw ProofVw2.
From Verif Require ProofRound9 ProofRound14 ProofRound16 ProofVw3.
Local Open Scope nat_scope.

(** * Inline elements *)

Definition prints (f : vm) (s : str) : Prop := exists ss, writes f ss /\ concat ss = s.
Lemma prints_wr s : prints (wr s) s.
Proof. exists [s]. split; [apply writes_wr|apply app_nil_r]. Qed.
Lemma prints_none : prints vskip [].
Proof. exists []. split; [apply writes_none|reflexivity]. Qed.
Lemma prints_seq f g a b : prints f a -> prints g b -> prints (f ;; g) (a ++ b).
Proof. intros (x & X & <-) (y & Y & <-). exists (x ++ y). split; [now apply writes_seq|apply concat_app]. Qed.
Lemma prints_each {A} (f : A -> vm) (g : A -> str) l : (forall x, In x l -> prints (f x) (g x)) -> prints (veach f l) (flat_map g l).
Proof.
  induction l as [|x l IH]; intro H; [apply prints_none|]. cbn [flat_map].
  destruct (prints_seq (f x) (veach f l) (g x) (flat_map g l)) as (ss & E & C); [apply H; now left|apply IH; intros; apply H; now right|].
  exists ss. split; auto.
Qed.
Lemma prints_eq f a b : prints f a -> a = b -> prints f b. Proof. now intros H <-. Qed.
Lemma prints_run f s ct n : prints f s -> f (Vst ct n false) = VOk (Vst (ct ++ s) n false).
Proof. intros (ss & E & <-). rewrite E. apply writes_plain. Qed.

(** Text that a later [trim_end] cannot join with what follows it. *)
Definition asc_end (c : str) : Prop := c = [] \/ exists a b, c = a ++ [b] /\ (byte_n b <? 128) = true.
Lemma white_high w : white_char w -> length w = 1 \/ Forall (fun b => (byte_n b <? 128) = false) w.
Proof.
  unfold white_char. cbn [white_chars In]. intro H. repeat (destruct H as [<-|H]; [(left; reflexivity) || (right; repeat constructor)|]). destruct H.
Qed.
Lemma not_ends_white c s : asc_end c -> s <> [] -> ~ ends_white s -> ~ ends_white (c ++ s).
Proof.
  intros A Ne N (w & r & Hw & E). apply app_eq_app in E as [x [[E1 E2]|[E1 E2]]].
  - destruct x as [|x0 x]; [cbn in E2; subst w; apply N; exists s, []; auto|].
    destruct A as [->|(a & b & -> & Hb)]; [now destruct r|].
    destruct (white_high w Hw) as [L|L].
    + rewrite E2, app_length in L. destruct s; [congruence|cbn in L; lia].
    + rewrite E2 in L. apply Forall_app in L as [L _]. destruct (exists_last (l := x0 :: x)) as (y & z & Ez); [discriminate|].
      rewrite Ez in *. rewrite app_assoc in E1. apply app_inj_tail in E1 as [_ <-]. apply Forall_app in L as [_ L]. inversion L. congruence.
  - apply N. exists w, x. auto.
Qed.
Lemma trim_start_id s : ~ starts_white s -> str_trim_start s = s.
Proof.
  intro N. destruct (trim_start_spec s) as (w & E & Hw & _). destruct w as [|x w]; [now symmetry|].
  exfalso. apply N. destruct (blank_starts _ Hw) as (u & r & Hu & Eu); [easy|]. rewrite E, Eu. exists u, (r ++ str_trim_start s). now rewrite app_assoc.
Qed.
Lemma writes_skip_id ss : ~ starts_white (concat ss) -> forall c n,
  exists b, veach wr ss (Vst c n true) = VOk (Vst (c ++ concat ss) n b).
Proof.
  induction ss as [|s ss IH]; intros N c n; cbn [concat] in *.
  - exists true. cbn. now rewrite app_nil_r.
  - rewrite veach_cons. unfold vseq, wr at 1. cbn [v_skip v_content v_indent].
    rewrite trim_start_id. 2: { intros (w & r & Hw & ->). apply N. exists w, (r ++ concat ss). now rewrite app_assoc. }
    destruct s as [|x s].
    + rewrite app_nil_r. apply IH. exact N.
    + exists false. rewrite writes_plain. now rewrite <- app_assoc.
Qed.
Lemma prints_trim f s ct n : prints f s -> str_trim s = s -> s <> [] -> asc_end ct ->
  and_trim f (Vst ct n false) = VOk (Vst (ct ++ s) n false).
Proof.
  intros (ss & E & <-) T Ne A. apply ProofRound9.str_trim_id in T as [T1 T2].
  unfold and_trim, skip_whitespace, vseq. cbn [v_content v_indent]. rewrite E. destruct (writes_skip_id ss T1 ct n) as [b ->].
  unfold trim_end. cbn [v_content v_indent v_skip]. do 2 f_equal.
  apply (trim_end_unique _ _ []); [now rewrite app_nil_r|constructor|]. now apply not_ends_white.
Qed.

(** * Lines *)

Definition at_line (ct : str) : bool := match ct with [] => true | _ => ends_with_nl ct end.
Definition rep (n : nat) : str := concat (repeat (bs "    ") n).
Definition pad (ct : str) (n : nat) : str := if at_line ct then rep n else [].
Definition lines_at (ct : str) (n : nat) (ls : list str) : str :=
  match ls with [] => [] | l :: ls' => pad ct n ++ l ++ b_nl :: nl_lines (map (app (rep n)) ls') end.
Lemma asc_snoc a b : (byte_n b <? 128) = true -> asc_end (a ++ [b]).
Proof. intro H. right. eauto. Qed.
Lemma asc_app a b : asc_end a -> asc_end b -> asc_end (a ++ b).
Proof.
  intros A [->|(x & y & -> & H)]; [now rewrite app_nil_r|]. rewrite app_assoc. now apply asc_snoc.
Qed.
Lemma asc_rep n : asc_end (rep n).
Proof.
  unfold rep. induction n as [|n IH]; [now left|]. cbn [repeat concat]. apply asc_app; auto. right. exists (bs "   "), b_sp. split; reflexivity.
Qed.
Lemma asc_pad ct n : asc_end ct -> asc_end (ct ++ pad ct n).
Proof. intro H. unfold pad. apply asc_app; auto. destruct (at_line ct); [apply asc_rep|now left]. Qed.
Lemma at_line_nl ct : at_line (ct ++ [b_nl]) = true.
Proof. unfold at_line, ends_with_nl. destruct (ct ++ [b_nl]) eqn:E; [now destruct ct|]. rewrite <- E, rev_app_distr. reflexivity. Qed.
Lemma nl_lines_end ls : ls <> [] -> exists t, nl_lines ls = t ++ [b_nl].
Proof.
  intro N. destruct (exists_last N) as (a & l & ->). unfold nl_lines. rewrite flat_map_app. cbn. rewrite app_nil_r. exists (flat_map (fun l => l ++ [b_nl]) a ++ l). now rewrite app_assoc.
Qed.
Lemma lines_at_end ct n l ls : exists t, lines_at ct n (l :: ls) = t ++ [b_nl].
Proof.
  cbn [lines_at]. destruct ls as [|l' ls].
  - exists (pad ct n ++ l). now rewrite <- app_assoc.
  - destruct (nl_lines_end (map (app (rep n)) (l' :: ls))) as [t Et]; [discriminate|]. rewrite Et. exists (pad ct n ++ l ++ b_nl :: t). now rewrite <- !app_assoc.
Qed.
Lemma asc_lines ct n ls : asc_end ct -> asc_end (ct ++ lines_at ct n ls).
Proof.
  intro A. destruct ls as [|l ls]; [cbn; now rewrite app_nil_r|]. destruct (lines_at_end ct n l ls) as [t ->]. rewrite app_assoc. now apply asc_snoc.
Qed.
Lemma lines_at_app ct n a b : lines_at ct n (a ++ b) = lines_at ct n a ++ lines_at (ct ++ lines_at ct n a) n b.
Proof.
  destruct a as [|l a]; [cbn; now rewrite app_nil_r|]. destruct b as [|l' b]; [cbn; now rewrite !app_nil_r|].
  assert (P : pad (ct ++ lines_at ct n (l :: a)) n = rep n).
  { unfold pad. destruct (lines_at_end ct n l a) as [t ->]. now rewrite app_assoc, at_line_nl. }
  cbn [lines_at app] in *. rewrite P. unfold nl_lines. rewrite map_app, flat_map_app. cbn [map flat_map]. rewrite <- ?app_assoc. cbn [app]. rewrite <- ?app_assoc. reflexivity.
Qed.

Definition lp (n : nat) (f : vm) (ls : list str) : Prop :=
  forall ct, asc_end ct -> f (Vst ct n false) = VOk (Vst (ct ++ lines_at ct n ls) n false).
Lemma lp_nil n : lp n vskip [].
Proof. intros ct _. cbn. now rewrite app_nil_r. Qed.
Lemma lp_seq n f g a b : lp n f a -> lp n g b -> lp n (f ;; g) (a ++ b).
Proof.
  intros F G ct A. unfold vseq. rewrite (F ct A), (G _ (asc_lines ct n a A)), lines_at_app, <- app_assoc. reflexivity.
Qed.
Lemma lp_each {A} n (f : A -> vm) (g : A -> list str) l : (forall x, In x l -> lp n (f x) (g x)) -> lp n (veach f l) (flat_map g l).
Proof.
  induction l as [|x l IH]; intro H; [apply lp_nil|]. cbn [flat_map].
  apply (lp_seq n (f x) (veach f l)); [apply H; now left|apply IH; intros; apply H; now right].
Qed.
Lemma lp_each1 {A} n (f : A -> vm) (g : A -> str) l : (forall x, In x l -> lp n (f x) [g x]) -> lp n (veach f l) (map g l).
Proof.
  intro H. pose proof (lp_each n f (fun x => [g x]) l H) as E. rewrite flat_map_concat_map in E.
  replace (concat (map (fun x => [g x]) l)) with (map g l) in E; auto. clear. induction l; cbn; congruence.
Qed.
Lemma indent_run ct n : write_indent (bs "    ") (Vst ct n false) = VOk (Vst (ct ++ pad ct n) n false).
Proof.
  unfold write_indent, pad, at_line. cbn [v_content v_indent]. destruct ct as [|c ct]; [apply writes_plain|].
  destruct (ends_with_nl (c :: ct)); [apply writes_plain|now rewrite app_nil_r].
Qed.
(** A line of the output: indentation, a text and a newline. *)
Lemma lp_line n f l : (forall ct, asc_end ct -> f (Vst ct n false) = VOk (Vst (ct ++ l ++ [b_nl]) n false)) ->
  lp n (write_indent (bs "    ") ;; f) [l].
Proof.
  intros F ct A. unfold vseq. rewrite indent_run, F by now apply asc_pad. cbn [lines_at map nl_lines flat_map]. now rewrite <- app_assoc.
Qed.
Lemma lp_prints n f s : prints f s -> forall ct, (f ;; wln) (Vst ct n false) = VOk (Vst (ct ++ s ++ [b_nl]) n false).
Proof. intros P ct. unfold vseq. rewrite (prints_run f s ct n P). unfold wln, wr. cbn [v_skip v_content v_indent]. now rewrite <- app_assoc. Qed.

Section Print.
Variable up : str -> option uri.
Variable dp : str -> option date.
Variable lossy : str -> str.
Variable roman : bool -> Z -> str.
Local Notation cfg := default_vw.
Local Notation cont_src := (cont_src lossy).

Lemma prints_pairs l first : prints (pairs_vw first l) ((if first then [] else match l with [] => [] | _ => bs " " end) ++ attrs_text l).
Proof.
  revert first. induction l as [|[k v] l IH]; intro first.
  - cbn. destruct first; apply prints_none.
  - cbn [pairs_vw]. eapply prints_eq; [repeat first [apply prints_seq|apply prints_wr|apply IH]|].
    + instantiate (1 := if first then [] else bs " "). destruct first; [apply prints_none|apply prints_wr].
    + unfold attrs_text. destruct l as [|q l]; destruct first; cbn [map join app]; unfold meta_text; cbn [fst snd]; rewrite <- ?app_assoc, ?app_nil_r; reflexivity.
Qed.
Lemma prints_data d : desc_fine (ld_desc d) -> prints (opt_desc_vw lossy (ld_desc d)) (desc_src (ld_desc d)).
Proof.
  destruct (ld_desc d) as [[t|x]|]; cbn; intro F; [|contradiction|apply prints_none]. apply (prints_seq _ _ (bs "|") t); apply prints_wr.
Qed.
Lemma split_str_some pat l : forall k, split_str_go pat k l <> [].
Proof.
  induction l as [|c l IH]; intro k; [discriminate|]. cbn [split_str_go]. destruct k as [|k]; [|apply IH].
  destruct (starts_with pat (c :: l)); [discriminate|]. destruct (split_str_go pat 0 l); discriminate.
Qed.
Lemma prints_link l next : link_fine up dp lossy l next -> prints (link_vw lossy l) (link_src lossy l).
Proof.
  destruct l as [d|i d|nm d|t d|d|d]; cbn [link_fine link_vw link_src inside_src]; intro F.
  - destruct F as ((_ & F & _) & _). eapply prints_eq; [repeat first [apply prints_seq|apply prints_wr|apply prints_data; exact F]|].
    now rewrite <- !app_assoc.
  - destruct F as ((_ & F & _) & _). eapply prints_eq; [repeat first [apply prints_seq|apply prints_wr|apply prints_data; exact F]|].
    rewrite <- !app_assoc. reflexivity.
  - destruct F as ((_ & F & _) & _). eapply prints_eq; [repeat first [apply prints_seq|apply prints_wr|apply prints_data; exact F]|].
    rewrite <- !app_assoc. reflexivity.
  - destruct F as (_ & _ & F & _). unfold anchor_src. eapply prints_eq.
    + apply prints_seq; [apply prints_wr|]. apply prints_seq; [apply prints_wr|]. apply prints_seq.
      * instantiate (1 := match to_anchor d with Some a => bs "#" ++ join (bs "#") a | None => [] end).
        unfold to_anchor. destruct (u_fragment (ld_uri d)) as [f|]; cbn [option_map]; [|apply prints_none].
        pose proof (split_str_some (bs "%23") f 0) as N. fold (split_str (bs "%23") f) in N.
        destruct (split_str (bs "%23") f); [congruence|]. apply prints_wr.
      * apply prints_seq; [apply prints_data; exact F|apply prints_wr].
    + rewrite <- !app_assoc. reflexivity.
  - apply prints_wr.
  - destruct F as ((_ & F & P) & _). destruct d as [u ds ps]. cbn [ld_props] in P. subst ps. cbn [transclusion_vw].
    eapply prints_eq; [apply prints_seq; [apply prints_wr|]; apply prints_seq; [apply prints_wr|]; apply prints_seq;
      [apply (prints_data (LinkData u ds None)); exact F|]; apply prints_seq; [apply prints_none|apply prints_wr]|].
    cbn [app]. unfold target_src. cbn [ld_uri]. now rewrite <- !app_assoc.
Qed.
Lemma kw_eq k : keyword_display k = kw_str k.
Proof. destruct k; reflexivity. Qed.
Lemma mark_eq k : deco_mark k = delim_of k.
Proof. destruct k; reflexivity. Qed.
Lemma prints_dc c : forall before next, dc_fine up dp lossy before c next -> prints (dcontent_vw lossy c) (dc_src lossy c).
Proof.
  induction c using dcontent_ind'; intros before next F; cbn [dcontent_vw dc_src].
  - apply prints_wr.
  - rewrite mark_eq. apply prints_seq; [apply prints_wr|]. apply prints_seq; [|apply prints_wr].
    apply prints_each. cbn [dc_fine] in F. destruct F as (_ & _ & F). rename H into IH. revert F. generalize (before ++ delim_of k). induction IH as [|x cs Hx _ IHc]; intros b F y Hy; [destruct Hy|].
    destruct F as [F1 F2]. destruct Hy as [<-|Hy]; [exact (Hx _ _ F1)|]. exact (IHc _ F2 y Hy).
  - rewrite kw_eq. apply prints_wr.
  - exact (prints_link _ _ F).
Qed.
Lemma prints_inline i before next : inline_fine up dp lossy before i next -> prints (inline_vw cfg lossy i) (inline_src lossy i).
Proof.
  destruct i as [t|k cs|k|l|ts|t|t|c]; cbn [inline_vw inline_src inline_fine]; intro F.
  - apply prints_wr.
  - exact (prints_dc (DCDeco k cs) _ _ F).
  - rewrite kw_eq. apply prints_wr.
  - exact (prints_link _ _ F).
  - apply prints_seq; [apply prints_wr|]. apply prints_each. intros t _. apply prints_seq; apply prints_wr.
  - apply prints_seq; [apply prints_wr|]. apply prints_seq; apply prints_wr.
  - apply prints_seq; [apply prints_wr|]. apply prints_seq; apply prints_wr.
  - destruct c as [t|ls]; [|contradiction]. destruct F as (_ & _ & F). cbn [comment_vw]. change (negb (vc_com_nopad cfg)) with true. change (vc_com_trim cfg) with true.
    cbn [wr_if]. apply (prints_eq _ (bs "%%" ++ bs " " ++ str_trim t)); [|now rewrite <- F].
    apply prints_seq; [apply prints_wr|]. apply prints_seq; apply prints_wr.
Qed.
Lemma prints_container c : forall before, items_fine up dp lossy before c -> prints (container_vw cfg lossy c) (cont_src c).
Proof.
  intros before F. apply prints_each. revert before F. induction c as [|x c IH]; intros before F y Hy; [destruct Hy|].
  destruct F as [F1 F2]. destruct Hy as [<-|Hy]; [exact (prints_inline _ _ _ F1)|exact (IH _ F2 y Hy)].
Qed.
Hypothesis Hsch : forall t u s, up t = Some u -> u_scheme u = Some s -> In s web_schemes ->
  exists w r, t = w ++ bs ":" ++ r /\ map lower w = s.
Lemma cont_line n c : cont_fine up dp lossy c -> lp n (write_indent (bs "    ") ;; and_trim (container_vw cfg lossy c) ;; wln) [cont_src c].
Proof.
  intro F. apply lp_line. intros ct A. unfold vseq at 1.
  rewrite (prints_trim _ (cont_src c)); [|apply (prints_container c []); apply F|apply F|exact (ProofRound9.cont_ne up dp lossy Hsch c F)|exact A].
  unfold wln, wr. cbn [v_skip v_content v_indent]. now rewrite <- app_assoc.
Qed.

(** * Blocks *)

Lemma paragraph_prints n ls : Forall (fun c => cont_fine up dp lossy c /\ line_plain (cont_src c)) ls ->
  lp n (paragraph_vw cfg lossy ls) (map cont_src ls).
Proof.
  intro F. unfold paragraph_vw. change (vc_par_trim cfg) with true. change (vc_indent cfg) with (bs "    "). cbn [trim_if].
  apply lp_each1. intros c Hc. eapply Forall_forall in F; eauto. now apply cont_line.
Qed.
Lemma quote_prints n ls : Forall (fun l => quote_fine l /\ l <> [] /\ str_trim l = l) ls ->
  lp n (blockquote_vw cfg ls) (quote_lines ls).
Proof.
  intro F. unfold blockquote_vw. change (vc_bq_trim cfg) with true. change (vc_bq_indented cfg) with false. change (vc_indent cfg) with (bs "    "). cbn [trim_if].
  unfold quote_lines. apply lp_each1. intros l Hl. eapply Forall_forall in F as (_ & N & T); eauto. apply lp_line. intros ct A.
  unfold vseq at 1. unfold wr at 1. cbn [v_skip v_content v_indent]. unfold vseq at 1.
  rewrite (prints_trim _ l); [|apply prints_wr|exact T|exact N|].
  - unfold wln, wr. cbn [v_skip v_content v_indent]. now rewrite <- !app_assoc.
  - apply asc_app; auto. right. exists (bs ">"), b_sp. split; reflexivity.
Qed.
Lemma text_line n l : lp n (write_indent (bs "    ") ;; wr l ;; wln) [l].
Proof. apply lp_line. intros ct _. apply lp_prints, prints_wr. Qed.
Lemma math_prints n m : lp n (math_vw cfg m) (math_lines m).
Proof.
  unfold math_vw, math_lines. change (vc_indent cfg) with (bs "    ").
  assert (E : forall st, (write_indent (bs "    ") ;; wr (bs "{{$") ;; match mb_env m with Some e => wr (bs "%" ++ e ++ bs "%") | None => vskip end ;; wln
    ;; veach (fun l => write_indent (bs "    ") ;; wr l ;; wln) (mb_lines m) ;; write_indent (bs "    ") ;; wr (bs "}}$") ;; wln) st =
    ((write_indent (bs "    ") ;; (wr (bs "{{$") ;; match mb_env m with Some e => wr (bs "%" ++ e ++ bs "%") | None => vskip end) ;; wln)
    ;; veach (fun l => write_indent (bs "    ") ;; wr l ;; wln) (mb_lines m) ;; write_indent (bs "    ") ;; wr (bs "}}$") ;; wln) st).
  { intro st. unfold vseq. repeat (match goal with |- context [match ?x with VOk _ => _ | VPanic => _ end] => destruct x end; auto). }
  intros ct A. rewrite E. revert ct A. apply (lp_seq n _ _ [bs "{{$" ++ env_text (mb_env m)]).
  - apply lp_line. intros ct _. apply lp_prints. apply prints_seq; [apply prints_wr|]. destruct (mb_env m); [apply prints_wr|apply prints_none].
  - apply lp_seq; [|apply text_line]. rewrite <- (map_id (mb_lines m)) at 2. apply (lp_each1 n _ (fun l => l)). intros l _. apply text_line.
Qed.
Lemma sort_eq l : sort_pairs l = n_map l.
Proof.
  unfold sort_pairs, n_map, by_key. f_equal.
Qed.
Lemma code_prints n c : lp n (code_vw cfg c) (code_lines c (n_map (cb_meta c))).
Proof.
  unfold code_vw, code_lines. change (vc_indent cfg) with (bs "    "). rewrite sort_eq.
  set (pw := pairs_vw _ (n_map (cb_meta c))).
  assert (E : forall st, (write_indent (bs "    ") ;; wr (bs "{{{") ;; match cb_lang c with Some l => wr l | None => vskip end ;; pw ;; wln
    ;; veach (fun l => write_indent (bs "    ") ;; wr l ;; wln) (cb_lines c) ;; write_indent (bs "    ") ;; wr (bs "}}}") ;; wln) st =
    ((write_indent (bs "    ") ;; (wr (bs "{{{") ;; match cb_lang c with Some l => wr l | None => vskip end ;; pw) ;; wln)
    ;; veach (fun l => write_indent (bs "    ") ;; wr l ;; wln) (cb_lines c) ;; write_indent (bs "    ") ;; wr (bs "}}}") ;; wln) st).
  { intro st. unfold vseq. repeat (match goal with |- context [match ?x with VOk _ => _ | VPanic => _ end] => destruct x end; auto). }
  intros ct A. rewrite E. revert ct A. apply (lp_seq n _ _ [bs "{{{" ++ code_head (cb_lang c) (n_map (cb_meta c))]).
  - apply lp_line. intros ct _. apply lp_prints. apply prints_seq; [apply prints_wr|]. unfold code_head, pw. destruct (cb_lang c) as [l|].
    + apply prints_seq; [apply prints_wr|]. eapply prints_eq; [apply prints_pairs|]. destruct (n_map (cb_meta c)); reflexivity.
    + eapply prints_eq; [apply prints_seq; [apply prints_none|apply prints_pairs]|]. reflexivity.
  - apply lp_seq; [|apply text_line]. rewrite <- (map_id (cb_lines c)) at 2. apply (lp_each1 n _ (fun l => l)). intros l _. apply text_line.
Qed.
Lemma seq_assoc (f g h : vm) st : ((f ;; g) ;; h) st = (f ;; g ;; h) st.
Proof. unfold vseq. now destruct (f st). Qed.
Lemma seq_ext (f g h : vm) st : (forall st, g st = h st) -> (f ;; g) st = (f ;; h) st.
Proof. intro E. unfold vseq. destruct (f st); auto. Qed.
Lemma defs_prints n ds : Forall (fun d => cont_fine up dp lossy (l_val d)) ds ->
  lp n (defs_vw cfg lossy false ds) (map (def_line lossy) ds).
Proof.
  induction 1 as [|d ds F _ IH]; [apply lp_nil|]. cbn [defs_vw map andb].
  change (vc_dl_trim_defs cfg) with true. change (vc_indent cfg) with (bs "    "). cbn [trim_if].
  intros ct A. rewrite <- !seq_assoc. revert ct A. change (def_line lossy d :: map (def_line lossy) ds) with ([def_line lossy d] ++ map (def_line lossy) ds).
  apply lp_seq; [|exact IH]. intros ct A. rewrite !seq_assoc. revert ct A. apply lp_line. intros ct A.
  unfold vseq at 1. rewrite (prints_run _ _ _ _ (prints_wr (bs ":: "))). unfold vseq at 1.
  rewrite (prints_trim _ (cont_src (l_val d))); [|apply (prints_container _ []); apply F|apply F|exact (ProofRound9.cont_ne up dp lossy Hsch _ F)|].
  - unfold wln, wr. cbn [v_skip v_content v_indent]. unfold def_line. now rewrite <- !app_assoc.
  - apply asc_app; [exact A|]. right. exists (bs "::"), b_sp. split; reflexivity.
Qed.
Lemma td_prints n t : td_fine up dp lossy t ->
  lp n (write_indent (bs "    ") ;; and_trim (container_vw cfg lossy (l_val (td_term t))) ;; wr (bs "::")
    ;; (if match l_val (td_defs t) with [] => true | _ => false end then wln else vskip) ;; defs_vw cfg lossy true (l_val (td_defs t))) (td_lines lossy t).
Proof.
  intros (F1 & _ & F3 & F4). unfold td_lines. destruct (l_val (td_defs t)) as [|d ds]; [congruence|]. inversion F4 as [|? ? Fd Fs]; subst.
  cbn [defs_vw map]. change (true && negb (vc_dl_alone cfg)) with true. cbv iota. change (vc_dl_trim_defs cfg) with true. cbn [trim_if].
  set (T := cont_src (l_val (td_term t))).
  change ((T ++ def_line lossy d) :: map (def_line lossy) ds) with ([T ++ def_line lossy d] ++ map (def_line lossy) ds).
  intros ct A. rewrite <- !seq_assoc. revert ct A. apply lp_seq; [|exact (defs_prints n ds Fs)]. intros ct A. rewrite !seq_assoc. revert ct A.
  apply lp_line. intros ct A. unfold vseq at 1.
  rewrite (prints_trim _ T); [|apply (prints_container _ []); apply F1|apply F1|exact (ProofRound9.cont_ne up dp lossy Hsch _ F1)|exact A].
  unfold vseq at 1. rewrite (prints_run _ _ _ _ (prints_wr (bs "::"))). unfold vseq at 1. rewrite (prints_run _ _ _ _ prints_none). rewrite app_nil_r.
  unfold vseq at 1. rewrite (prints_run _ _ _ _ (prints_wr (bs " "))). unfold vseq at 1.
  rewrite (prints_trim _ (cont_src (l_val d))); [|apply (prints_container _ []); apply Fd|apply Fd|exact (ProofRound9.cont_ne up dp lossy Hsch _ Fd)|].
  - unfold wln, wr. cbn [v_skip v_content v_indent]. unfold def_line. change (bs ":: ") with (bs "::" ++ bs " "). now rewrite <- !app_assoc.
  - apply (asc_snoc _ b_sp). reflexivity.
Qed.
Lemma deflist_prints n d : Forall (fun x => td_fine up dp lossy (l_val x)) d ->
  lp n (deflist_vw cfg lossy d) (flat_map (fun x => td_lines lossy (l_val x)) d).
Proof.
  intro F. unfold deflist_vw. change (vc_dl_trim_terms cfg) with true. change (vc_dl_alone cfg) with false. change (vc_indent cfg) with (bs "    ").
  cbn [trim_if orb]. apply (lp_each n _ (fun x => td_lines lossy (l_val x))). intros x Hx. rewrite Forall_forall in F. exact (td_prints n _ (F x Hx)).
Qed.
(** * Tables *)

Lemma space_white b : is_space b = true -> white_char [b].
Proof. intro H. unfold white_char. destruct b; try discriminate; cbn; auto 10. Qed.
Lemma pad_id s : (exists b r, s = b :: r /\ is_space b = true) -> (exists b r, s = r ++ [b] /\ is_space b = true) -> pad_cell cfg s = s.
Proof.
  intros (b & r & E1 & S1) (b' & r' & E2 & S2). unfold pad_cell. change (vc_tbl_nopad cfg) with false. cbn iota.
  assert (L : length (str_trim_start s) <? length s = true).
  { apply Nat.ltb_lt. destruct (trim_start_spec s) as (w & E & _ & N). apply (f_equal (@length _)) in E as EL. rewrite app_length in EL.
    destruct w as [|x w]; [|cbn in EL; lia]. exfalso. apply N. exists [b], r. split; [now apply space_white|]. cbn [app] in E. now rewrite <- E. }
  assert (L' : length (str_trim_end s) <? length s = true).
  { apply Nat.ltb_lt. destruct (trim_end_spec s) as (w & E & _ & N). apply (f_equal (@length _)) in E as EL. rewrite app_length in EL.
    destruct w as [|x w]; [|cbn in EL; lia]. exfalso. apply N. exists [b'], r'. split; [now apply space_white|]. rewrite app_nil_r in E. now rewrite <- E. }
  rewrite L, L'. cbn [app]. rewrite app_nil_r. subst s. reflexivity.
Qed.
Lemma cell_text_fine w c s : cell_fine up dp lossy w c -> text_of cfg lossy c s ->
  length s = cell_size lossy c /\ (cell_size lossy c <= w -> s ++ repeat b_sp (w - length s) = cell_src lossy w c).
Proof.
  destruct c as [x|[]|a]; intros F T; cbn [text_of] in T; [| | |destruct T].
  - destruct T as (u & E & ->). destruct F as (F1 & F2 & _ & _ & _ & L & B1 & B2 & _).
    unfold run_vw in E. rewrite (prints_run _ _ [] 0 (prints_container x _ F2)) in E. cbn [v_content app] in E. injection E as <-.
    rewrite (pad_id _ B1 B2). split; [reflexivity|]. intros _. cbn [cell_src]. rewrite L, Nat.sub_diag. apply app_nil_r.
  - subst s. split; [reflexivity|]. cbn [cell_size cell_src]. intro L. change (length (pad_cell cfg (bs ">"))) with 3.
    change (pad_cell cfg (bs ">")) with (bs " >" ++ repeat b_sp 1). rewrite <- app_assoc, <- repeat_app. do 2 f_equal. lia.
  - subst s. split; [reflexivity|]. cbn [cell_size cell_src]. intro L. change (length (pad_cell cfg (bs "\/"))) with 4.
    change (pad_cell cfg (bs "\/")) with (bs " \/" ++ repeat b_sp 1). rewrite <- app_assoc, <- repeat_app. do 2 f_equal. lia.
Qed.
Lemma align_or_text c : (exists a, c = CAlign a) \/ exists s, text_of cfg lossy c s.
Proof. exact (ProofVw3.text_fits cfg lossy c). Qed.
Lemma table_prints n t : table_fine up dp lossy t -> lp n (table_vw cfg lossy t) (table_lines lossy t).
Proof.
  intro T. pose proof T as (M & W & Rc & Hr & Hc & Fc & Na & _).
  destruct (fixed_spec cfg lossy t M W) as (m & Em & N & Hm).
  assert (Rr : forall r c x, at_ t r c x -> reached t r c /\ walked t r c /\ r < t_row_cnt t /\ c < t_col_cnt t).
  { intros r c x A. destruct (W r c (ex_intro _ x A)) as [L1 L2]. split; [now apply ProofVw3.rect_reached|]. split; [|auto].
    intros k Hk. apply Rc; [lia|exact L2]. }
  assert (Size : forall c, c < t_col_cnt t -> column_size t m c = col_size lossy t c).
  { intros c Lc. destruct (Na c Lc) as (r0 & x0 & A0 & N0).
    destruct (align_or_text (l_val x0)) as [[a Ea]|[s0 E0]]; [now destruct (N0 a)|].
    assert (I0 : In (CellPos r0 c, s0) m).
    { apply (fixed_get_in lossy m N), Hm. exists x0. split; auto. split; auto. apply (Rr r0 c x0 A0). }
    apply Nat.le_antisymm.
    - unfold column_size. destruct (filter _ m) as [|e es] eqn:Ef; [lia|]. rewrite <- Ef. apply Nat.max_lub; apply list_max_le, Forall_map, Forall_forall.
      + intros [[r k] s] I. apply filter_In in I as [I K]. cbn [fst snd cp_col] in *. apply Nat.eqb_eq in K. subst k.
        apply (fixed_get_in lossy m N), Hm in I as (x & A & _ & Tx). rewrite (proj1 (cell_text_fine _ _ _ (Fc r c x A) Tx)).
        exact (ProofRound16.size_le lossy t r c x A).
      + intros x I. apply In_nth_error in I as [r I]. apply column_nth in I as [I _]. apply (get_cell_at t r c x M) in I.
        eapply Nat.le_trans; [|exact (ProofRound16.size_le lossy t r c x I)]. destruct (l_val x) as [?|[]|[]]; cbn; lia.
    - unfold col_size. apply list_max_le, Forall_map, Forall_forall. intros [[r k] x] I. apply filter_In in I as [A K]. cbn [fst snd cp_col] in *.
      apply Nat.eqb_eq in K. subst k. change (at_ t r c x) in A. destruct (Rr r c x A) as (R1 & R2 & L1 & _).
      destruct (align_or_text (l_val x)) as [[a Ea]|[s Es]].
      + pose proof (ProofVw3.column_size_mark t m r c x a s0 r0 M A Ea R2 I0) as Q. rewrite Ea. destruct a; exact Q.
      + assert (I1 : In (CellPos r c, s) m) by (apply (fixed_get_in lossy m N), Hm; eauto).
        rewrite <- (proj1 (cell_text_fine _ _ _ (Fc r c x A) Es)). exact (ProofVw3.column_size_text t m c r s I1). }
  assert (Cell : forall r c x, at_ t r c x -> ProofVw3.cell_str t m r c = cell_src lossy (col_size lossy t c) (l_val x) /\ ~ cell_misfit t m r c).
  { intros r c x A. destruct (Rr r c x A) as (R1 & R2 & L1 & L2). unfold ProofVw3.cell_str. rewrite (Size c L2).
    pose proof (ProofRound16.size_le lossy t r c x A) as Sz. pose proof (proj2 (get_cell_at t r c x M) A) as Gx. split.
    - destruct (fixed_get (CellPos r c) m) as [s|] eqn:E.
      + apply Hm in E as (y & Ay & _ & Ty). apply get_cell_at in Ay; auto. assert (y = x) by congruence. subst y.
        exact (proj2 (cell_text_fine _ _ _ (Fc r c x A) Ty) Sz).
      + rewrite Gx. destruct (align_or_text (l_val x)) as [[a Ea]|[s Es]].
        * destruct x as [v g]. cbn [l_val] in *. subst v. destruct a; reflexivity.
        * exfalso. assert (fixed_get (CellPos r c) m = Some s) by (apply Hm; eauto). congruence.
    - intros (y & a & Gy & V & L). assert (y = x) by congruence. subst y. rewrite (Size c L2) in L. rewrite V in Sz. destruct a; cbn in L, Sz; lia. }
  intros ct A. unfold table_vw. rewrite Em. revert ct A. change (lp n (veach (fun r => write_indent (bs "    ") ;; wr_if (t_centered t) (bs "    ") ;; wr (bs "|")
    ;; veach (cell_vw t m r) (seq 0 (t_col_cnt t)) ;; wln) (seq 0 (t_row_cnt t))) (table_lines lossy t)).
  unfold table_lines, row_lines. rewrite map_map. apply lp_each1. intros r Ir. apply in_seq in Ir. apply lp_line. intros ct _.
  unfold vseq at 1.
  replace (wr_if (t_centered t) (bs "    ") (Vst ct n false)) with (VOk (Vst (ct ++ if t_centered t then bs "    " else []) n false))
    by (destruct (t_centered t); cbn [wr_if]; [reflexivity|now rewrite app_nil_r]).
  unfold vseq at 1. rewrite ProofVw3.wr_run. unfold vseq at 1.
  rewrite (ProofVw3.each_run _ (fun c => ProofVw3.cell_str t m r c ++ bs "|")).
  - unfold wln. rewrite ProofVw3.wr_run. do 2 f_equal. rewrite <- !app_assoc. f_equal. f_equal. unfold row_line. rewrite <- app_assoc. f_equal. f_equal.
    apply flat_map_ext_in. intros c Ic. apply in_seq in Ic. f_equal. destruct (Rc r c ltac:(lia) ltac:(lia)) as [x Ax].
    rewrite (proj2 (ProofRound16.cell_at_spec t r c x M) Ax). apply (Cell r c x Ax).
  - intros c ct' Ic. apply in_seq in Ic. apply ProofVw3.cell_run. destruct (Rc r c ltac:(lia) ltac:(lia)) as [x Ax]. apply (Cell r c x Ax).
Qed.
Lemma pad0 ct : pad ct 0 = [].
Proof. unfold pad. now destruct (at_line ct). Qed.
Lemma lp0 f l : (forall ct, asc_end ct -> f (Vst ct 0 false) = VOk (Vst (ct ++ l ++ [b_nl]) 0 false)) -> lp 0 f [l].
Proof. intros F ct A. rewrite (F ct A). cbn [lines_at map nl_lines flat_map]. now rewrite pad0. Qed.
Lemma eqs k : concat (repeat (bs "=") k) = repeat x3d k.
Proof. induction k as [|k IH]; [reflexivity|]. cbn [repeat concat]. rewrite IH. reflexivity. Qed.
Lemma header_prints h : cont_fine up dp lossy (h_content h) -> lp 0 (header_vw cfg lossy h) [header_line lossy h].
Proof.
  intro F. apply lp0. intros ct A. unfold header_vw, header_line. change (vc_h_nopad cfg) with false. change (vc_h_trim cfg) with true.
  cbn [negb wr_if trim_if]. unfold vseq at 1. rewrite (prints_run _ (if h_centered h then bs "    " else [])) by (destruct (h_centered h); [apply prints_wr|apply prints_none]).
  unfold vseq at 1. rewrite writes_plain. unfold vseq at 1. rewrite (prints_run _ _ _ _ (prints_wr (bs " "))).
  pose proof (eqs (h_level h)) as Er.
  rewrite Er. unfold vseq at 1. rewrite (prints_trim _ (cont_src (h_content h)));
    [|apply (prints_container _ []); apply F|apply F|exact (ProofRound9.cont_ne up dp lossy Hsch _ F)|].
  - unfold vseq at 1. rewrite (prints_run _ _ _ _ (prints_wr (bs " "))). unfold vseq. rewrite writes_plain, Er. unfold wln, wr. cbn [v_skip v_content v_indent].
    now rewrite <- !app_assoc.
  - apply (asc_snoc _ b_sp). reflexivity.
Qed.
Lemma placeholder_prints p : lp 0 (placeholder_vw p) [placeholder_line p].
Proof.
  apply lp0. intros ct _. unfold placeholder_vw. apply lp_prints. destruct p; cbn [placeholder_line]; repeat first [apply prints_wr|apply prints_seq].
Qed.
Lemma divider_prints : lp 0 (wr (bs "----") ;; wln) [bs "----"].
Proof. apply lp0. intros ct _. apply lp_prints, prints_wr. Qed.
(** Inside an item the indentation is one more. *)
Definition lpi (n : nat) (f : vm) (ls : list str) : Prop :=
  forall ct, asc_end ct -> f (Vst ct n false) = VOk (Vst (ct ++ lines_at ct (n + 1) ls) n false).
Lemma lpi_indent n f ls : lp (n + 1) f ls -> lpi n (and_indent f) ls.
Proof.
  intros H ct A. unfold and_indent. cbn [v_content v_indent v_skip]. rewrite (H ct A). cbn [v_content v_indent v_skip]. do 2 f_equal. lia.
Qed.
Lemma lpi_nil n : lpi n vskip [].
Proof. intros ct _. cbn. now rewrite app_nil_r. Qed.
Lemma lpi_seq n f g a b : lpi n f a -> lpi n g b -> lpi n (f ;; g) (a ++ b).
Proof.
  intros F G ct A. unfold vseq. rewrite (F ct A), (G _ (asc_lines ct (n + 1) a A)), lines_at_app, <- app_assoc. reflexivity.
Qed.
Lemma lpi_each {A} n (f : A -> vm) (g : A -> list str) l : (forall x, In x l -> lpi n (f x) (g x)) -> lpi n (veach f l) (flat_map g l).
Proof.
  induction l as [|x l IH]; intro H; [apply lpi_nil|]. cbn [flat_map].
  apply (lpi_seq n (f x) (veach f l)); [apply H; now left|apply IH; intros; apply H; now right].
Qed.
Lemma rep_more n : rep (n + 1) = rep n ++ bs "    ".
Proof. unfold rep. rewrite repeat_app, concat_app. reflexivity. Qed.
Lemma not_at_line a c : is_nl c = false -> at_line (a ++ [c]) = false.
Proof. intro N. unfold at_line, ends_with_nl. destruct (a ++ [c]) eqn:E; [now destruct a|]. rewrite <- E, rev_app_distr. exact N. Qed.
Lemma todo_prints todo : prints (match todo with Some t => wr (bs "[") ;; wr (vc_todo cfg t) ;; wr (bs "] ") | None => vskip end) (todo_str todo).
Proof.
  destruct todo as [t|]; [|apply prints_none]. eapply prints_eq; [repeat first [apply prints_seq|apply prints_wr]|]. destruct t; reflexivity.
Qed.
Lemma block_prints_in b : forall n, block_fine up dp lossy roman b -> in_item b -> lp n (block_vw cfg roman lossy b) (block_lines lossy roman b).
Proof.
  apply (block_ind' (fun b => forall n, block_fine up dp lossy roman b -> in_item b -> lp n (block_vw cfg roman lossy b) (block_lines lossy roman b))
    (fun i => forall n, item_fine up dp lossy roman i -> lp n (item_vw cfg roman lossy i) (item_lines lossy roman i))).
  - intros b0 Hnl n F O. destruct b0 as [ls|d| |h|items|m|ls|p|c|t]; try contradiction O; cbn [block_vw block_lines].
    + apply quote_prints, F.
    + apply deflist_prints, F.
    + now destruct (Hnl items).
    + apply math_prints.
    + apply paragraph_prints, F.
    + apply code_prints.
    + exact (table_prints n t F).
  - intros items IH n F _. apply ProofRound14.list_fine in F as (_ & _ & F). rewrite ProofRound14.list_lines_eq.
    change (block_vw cfg roman lossy (BList items)) with (veach (fun x => item_vw cfg roman lossy (l_val x)) items).
    apply (lp_each n _ (fun x => item_lines lossy roman (l_val x))).
    intros x Hx. rewrite Forall_forall in IH, F. exact (IH x Hx n (F x Hx)).
  - intros ty suf pos cs todo IH n F. destruct (ProofRound14.item_parts _ _ _ _ _ _ _ _ _ F) as (c & cs' & -> & O & Oi & _ & _ & Fi).
    inversion IH as [|? ? I1 Is]; subst. inversion Fi as [|? ? F1 Fs]; subst.
    destruct (ProofRound14.open_head up dp lossy roman Hsch _ F1 O) as (x & r & ls & E & _).
    assert (B : lpi n (and_indent (block_vw cfg roman lossy (l_val c)) ;; veach (fun x => and_indent (block_vw cfg roman lossy (l_val x))) cs')
                (ProofRound14.inside lossy roman (c :: cs'))).
    { apply lpi_seq; [apply lpi_indent, I1; [exact F1|exact (ProofRound14.opens_in _ O)]|].
      apply (lpi_each n _ (fun x => block_lines lossy roman (l_val x))). intros y Hy. rewrite Forall_forall in Is, Fs, Oi.
      apply lpi_indent. exact (Is y Hy _ (Fs y Hy) (Oi y Hy)). }
    rewrite ProofRound14.item_lines_eq. change (ProofRound14.inside lossy roman (c :: cs')) with (block_lines lossy roman (l_val c) ++ ProofRound14.inside lossy roman cs') in *.
    rewrite E in *. cbn [app] in *. set (lc := x :: r) in *. set (rest := ls ++ ProofRound14.inside lossy roman cs') in *.
    intros ct A.
    change (item_vw cfg roman lossy (ListItem ty suf pos (c :: cs') todo)) with
      ((write_indent (bs "    ") ;; wr (li_prefix roman (ListItem ty suf pos [] todo)) ;; wr (bs " ")
           ;; match todo with Some t => wr (bs "[") ;; wr (vc_todo cfg t) ;; wr (bs "] ") | None => vskip end)
          ;; and_indent (block_vw cfg roman lossy (l_val c)) ;; veach (fun x => and_indent (block_vw cfg roman lossy (l_val x))) cs').
    set (ci := and_indent _ ;; veach _ cs') in *.
    assert (G : (write_indent (bs "    ") ;; wr (li_prefix roman (ListItem ty suf pos [] todo)) ;; wr (bs " ")
           ;; match todo with Some t => wr (bs "[") ;; wr (vc_todo cfg t) ;; wr (bs "] ") | None => vskip end) (Vst ct n false) =
       VOk (Vst (ct ++ pad ct n ++ marker roman (ListItem ty suf pos (c :: cs') todo) ++ todo_str todo) n false)).
    { unfold vseq at 1. rewrite indent_run. rewrite (prints_run _ (marker roman (ListItem ty suf pos (c :: cs') todo) ++ todo_str todo)).
      - now rewrite <- app_assoc.
      - unfold marker. eapply prints_eq; [apply prints_seq; [apply prints_wr|]; apply prints_seq; [apply prints_wr|apply todo_prints]|].
        rewrite <- app_assoc. reflexivity. }
    unfold vseq at 1. rewrite G.
    assert (Z : exists q, ct ++ pad ct n ++ marker roman (ListItem ty suf pos (c :: cs') todo) ++ todo_str todo = q ++ [b_sp]).
    { unfold marker. destruct todo as [t|]; [destruct (ProofRound14.todo_end t) as [q ->]|]; [|cbn [todo_str]; rewrite app_nil_r]; eexists; rewrite !app_assoc; reflexivity. }
    destruct Z as [q Z]. rewrite (B _); [|rewrite Z; apply asc_snoc; reflexivity].
    unfold lines_at at 1. unfold pad at 2. rewrite Z, (not_at_line q b_sp) by reflexivity. rewrite <- Z. cbn [lines_at app].
    rewrite ProofRound14.ind_ind, <- rep_more, <- !app_assoc. reflexivity.
Qed.
Lemma block_prints b : block_fine up dp lossy roman b -> lp 0 (block_vw cfg roman lossy b) (block_lines lossy roman b).
Proof.
  destruct b; intro F; try contradiction F; try (apply block_prints_in; [exact F|exact I]); cbn [block_vw block_lines].
  - apply divider_prints.
  - apply header_prints, F.
  - apply placeholder_prints.
  - exact (table_prints 0 t F).
Qed.
Lemma rep_id ls : map (app (rep 0)) ls = ls.
Proof. induction ls; cbn in *; congruence. Qed.
Lemma lines_at0 ct ls : lines_at ct 0 ls = nl_lines ls.
Proof. destruct ls as [|l ls]; [reflexivity|]. cbn [lines_at]. rewrite pad0, rep_id. cbn [nl_lines flat_map app]. now rewrite <- app_assoc. Qed.
Lemma page_prints p : Forall (fun b => block_fine up dp lossy roman (l_val b)) p -> forall ct, asc_end ct ->
  page_vw cfg roman lossy p (Vst ct 0 false) = VOk (Vst (ct ++ page_src lossy roman p) 0 false).
Proof.
  induction p as [|b p IH]; intros F ct A; [cbn; now rewrite app_nil_r|]. inversion F as [|? ? Fb Fp]; subst. cbn [page_vw].
  unfold vseq at 1. rewrite (block_prints _ Fb ct A). rewrite lines_at0. change (vc_separate cfg) with true.
  pose proof (asc_lines ct 0 (block_lines lossy roman (l_val b)) A) as A1. rewrite lines_at0 in A1.
  destruct p as [|b' p].
  - unfold vseq. cbn. reflexivity.
  - unfold vseq. unfold wln, wr. cbn [v_skip v_content v_indent]. rewrite IH; auto; [|apply asc_snoc; reflexivity].
    unfold page_src. cbn [map join]. now rewrite <- !app_assoc.
Qed.
Theorem page_printed p : page_fine up dp lossy roman p -> page_to_vimwiki cfg roman lossy p = Some (page_src lossy roman p).
Proof. intros [F _]. unfold page_to_vimwiki, run_vw. rewrite page_prints; auto. now left. Qed.
End Print.
