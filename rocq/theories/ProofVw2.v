(** Proofs about the printing of inline elements, tables and pages. *)
From Verif Require Import Base ModelSpan ModelAst ModelLink ModelBlock ModelElem ModelTable ModelVimwiki SpecTree SpecElem SpecVw
  ProofBase ProofTree ProofTable ProofElem ProofElem2 ProofEnv ProofClaims2 ProofWhite ProofVw.
Local Open Scope nat_scope.

(** * Inline elements are sequences of writes *)

Definition writes (f : vm) (ss : list str) : Prop := forall st, f st = veach wr ss st.

Lemma veach_app {A} (f : A -> vm) a b st : veach f (a ++ b) st = (veach f a ;; veach f b) st.
Proof.
  revert st. induction a as [|x a IH]; intro st; [reflexivity|]. cbn [app]. rewrite veach_cons.
  unfold vseq. rewrite (veach_cons f x a). unfold vseq. destruct (f x st); auto. rewrite IH. reflexivity.
Qed.
Lemma writes_wr s : writes (wr s) [s].
Proof. intro st. cbn. unfold vseq. destruct (wr s st); reflexivity. Qed.
Lemma writes_none : writes vskip [].
Proof. intro st. reflexivity. Qed.
Lemma writes_seq f g a b : writes f a -> writes g b -> writes (f ;; g) (a ++ b).
Proof.
  intros A B st. rewrite veach_app. unfold vseq. rewrite A. destruct (veach wr a st); auto.
Qed.
Definition writer (f : vm) : Prop := exists ss, writes f ss.
Lemma writer_wr s : writer (wr s).
Proof. eexists. apply writes_wr. Qed.
Lemma writer_none : writer vskip.
Proof. eexists. apply writes_none. Qed.
Lemma writer_seq f g : writer f -> writer g -> writer (f ;; g).
Proof. intros [a A] [b B]. eexists. apply writes_seq; eauto. Qed.
Lemma writer_if b s : writer (wr_if b s).
Proof. destruct b; [apply writer_wr | apply writer_none]. Qed.
Lemma writer_each {A} (f : A -> vm) l : Forall (fun x => writer (f x)) l -> writer (veach f l).
Proof.
  induction 1 as [|x l H _ IH]; [apply writer_none|].
  destruct (writer_seq _ _ H IH) as [ss E]. exists ss. intro st. rewrite veach_cons. apply E.
Qed.
Local Hint Resolve writer_wr writer_none writer_seq writer_if : wr.

Section Out.
Variable cfg : vw_config.
Variable roman : bool -> Z -> str.
Variable lossy : str -> str.

Lemma writer_pairs l : forall first, writer (pairs_vw first l).
Proof. induction l as [|[k v] l IH]; intro first; cbn [pairs_vw]; auto 10 with wr. Qed.
Fixpoint writer_desc (d : description) : writer (desc_vw lossy d)
with writer_transclusion (d : link_data) : writer (transclusion_vw lossy d).
Proof.
  - destruct d as [t|x]; cbn [desc_vw]; apply writer_seq; [apply writer_wr | apply writer_wr | apply writer_wr |].
    apply writer_transclusion.
  - destruct d as [u desc props]. cbn [transclusion_vw].
    apply writer_seq; [apply writer_wr|]. apply writer_seq; [apply writer_wr|].
    apply writer_seq; [destruct desc as [x|]; [apply writer_desc | apply writer_none]|].
    apply writer_seq; [|apply writer_wr]. clear. destruct props; [|apply writer_none].
    apply writer_seq; [apply writer_if|]. apply writer_seq; [apply writer_wr|]. apply writer_pairs.
Qed.
Lemma writer_opt_desc d : writer (opt_desc_vw lossy d).
Proof. destruct d; [apply writer_desc | apply writer_none]. Qed.
Local Hint Resolve writer_pairs writer_desc writer_transclusion writer_opt_desc : wr.
Lemma writer_link l : writer (link_vw lossy l).
Proof. destruct l; cbn [link_vw]; auto 10 with wr. destruct (to_anchor d); auto 10 with wr. Qed.
Local Hint Resolve writer_link : wr.
Lemma writer_dcontent : forall c, writer (dcontent_vw lossy c).
Proof.
  apply dcontent_ind'; try (intros; cbn [dcontent_vw]; auto with wr; fail).
  intros k cs H. cbn [dcontent_vw]. apply writer_seq; auto with wr. apply writer_seq; auto with wr.
  apply writer_each. exact H.
Qed.
Lemma writer_comment c : writer (comment_vw cfg c).
Proof.
  destruct c as [t|ls]; cbn [comment_vw]; auto 10 with wr.
  do 2 (apply writer_seq; auto with wr). apply writer_seq; auto with wr.
  induction ls as [|x ls IH]; auto with wr. apply writer_seq; auto with wr. apply writer_seq; auto.
  destruct ls; auto with wr. apply writer_wr.
Qed.
Lemma writer_inline i : writer (inline_vw cfg lossy i).
Proof.
  destruct i; cbn [inline_vw]; auto 10 using writer_dcontent, writer_comment with wr.
  apply writer_seq; auto with wr. apply writer_each. apply Forall_forall. auto with wr.
Qed.
Lemma writer_container c : writer (container_vw cfg lossy c).
Proof. apply writer_each. apply Forall_forall. intros. apply writer_inline. Qed.

Lemma container_runs c : exists s, run_vw (container_vw cfg lossy c) = Some s /\
  forall ct n, container_vw cfg lossy c (Vst ct n false) = VOk (Vst (ct ++ s) n false).
Proof.
  destruct (writer_container c) as [ss E]. exists (concat ss). unfold run_vw.
  rewrite E, writes_plain. split; auto. intros. rewrite E. apply writes_plain.
Qed.

(** * Positions reached by the cell iterator *)

Lemma reached_prev t r c r' c' : reached t r c -> c < t_col_cnt t ->
  r' < r \/ r' = r /\ c' <= c -> reached t r' c'.
Proof.
  intros H Hc L a b Hb Hab. apply H; auto. lia.
Qed.

Lemma cells_pos_run_in t : is_map t -> counts_ok t ->
  forall fuel r c p x,
  c < t_col_cnt t -> (forall r' c', c' < t_col_cnt t -> r' < r \/ r' = r /\ c' < c -> present t r' c') ->
  In (p, x) (cells_pos_run fuel t (r, c)) ->
  at_ t (cp_row p) (cp_col p) x /\ reached t (cp_row p) (cp_col p) /\ (r < cp_row p \/ r = cp_row p /\ c <= cp_col p).
Proof.
  intros M W. induction fuel as [|f IH]; intros r c p x Hc Hb I; [destruct I|].
  cbn [cells_pos_run cells_step] in I. destruct (get_cell t r c) as [y|] eqn:E; [|destruct I].
  pose proof (proj1 (get_cell_at t r c y M) E) as Ha.
  assert (Pr : present t r c) by now exists y.
  cbn [fst snd] in I. destruct I as [I|I].
  { injection I as <- <-. cbn. split; auto. split; [|lia]. intros r' c' Hc' L.
    destruct (Nat.eq_dec r' r) as [->|N]; [destruct (Nat.eq_dec c' c) as [->|N']|]; auto; apply Hb; auto; lia. }
  destruct (c + 1 <? t_col_cnt t) eqn:E1.
  - apply Nat.ltb_lt in E1. apply IH in I; auto.
    + destruct I as (I1 & I2 & I3). split; auto. split; auto. lia.
    + intros r' c' Hc' L. destruct (Nat.eq_dec r' r) as [->|N]; [destruct (Nat.eq_dec c' c) as [->|N']|]; auto; apply Hb; auto; lia.
  - apply Nat.ltb_ge in E1. destruct (r + 1 <? t_row_cnt t) eqn:E2.
    + apply IH in I; try lia.
      * destruct I as (I1 & I2 & I3). split; auto. split; auto. lia.
      * intros r' c' Hc' L. destruct (Nat.eq_dec r' r) as [->|N]; [destruct (Nat.eq_dec c' c) as [->|N']|]; auto; apply Hb; auto; lia.
    + destruct f as [|f']; [destruct I|]. cbn [cells_pos_run cells_step] in I.
      rewrite (outside_none t _ _ M W (le_n _)) in I. destruct I.
Qed.

Lemma cells_pos_run_all t : is_map t -> counts_ok t ->
  forall fuel r c r' c' x,
  r < t_row_cnt t -> c < t_col_cnt t ->
  (t_row_cnt t - S r) * t_col_cnt t + (t_col_cnt t - c) < fuel ->
  at_ t r' c' x -> reached t r' c' -> r < r' \/ r = r' /\ c <= c' ->
  In (CellPos r' c', x) (cells_pos_run fuel t (r, c)).
Proof.
  intros M W. induction fuel as [|f IH]; intros r c r' c' x Hr Hc Hf Ha Hre L; [lia|].
  cbn [cells_pos_run cells_step].
  destruct (W r' c') as [Wr Wc]; [now exists x|].
  destruct (Hre r c Hc ltac:(lia)) as [y Hy]. apply get_cell_at in Hy; auto. rewrite Hy. cbn [fst snd].
  destruct (Nat.eq_dec r r') as [->|N]; [destruct (Nat.eq_dec c c') as [->|N']|].
  - left. apply get_cell_at in Ha; auto. congruence.
  - right. replace (c + 1 <? t_col_cnt t) with true by (symmetry; apply Nat.ltb_lt; lia). apply IH; auto; lia.
  - right. destruct (c + 1 <? t_col_cnt t) eqn:E1.
    + apply Nat.ltb_lt in E1. apply IH; auto; lia.
    + apply Nat.ltb_ge in E1. replace (r + 1 <? t_row_cnt t) with true by (symmetry; apply Nat.ltb_lt; lia).
      replace (t_row_cnt t - S r) with (S (t_row_cnt t - S (r + 1))) in Hf by lia. cbn in Hf.
      apply IH; auto; lia.
Qed.

Lemma cells_pos_in t r c x : is_map t -> counts_ok t ->
  (In (CellPos r c, x) (cells_pos t) <-> at_ t r c x /\ reached t r c).
Proof.
  intros M W. unfold cells_pos.
  destruct (get_cell t 0 0) as [y|] eqn:E.
  - assert (B : 0 < t_row_cnt t /\ 0 < t_col_cnt t).
    { apply W. exists y. now apply get_cell_at. }
    split.
    + intro I. apply cells_pos_run_in in I; auto; [|lia|intros; lia]. cbn in I. tauto.
    + intros [A R]. apply cells_pos_run_all; auto; try lia.
      destruct (t_row_cnt t) as [|R']; [lia|]. cbn. lia.
  - cbn [cells_pos_run cells_step]. rewrite E. split; [intros []|]. intros [A R].
    destruct (W r c) as [W1 W2]; [now exists x|].
    destruct (R 0 0 ltac:(lia) ltac:(lia)) as [z Z]. apply get_cell_at in Z; auto. congruence.
Qed.

Lemma cells_pos_nodup t : is_map t -> counts_ok t -> NoDup (map fst (cells_pos t)).
Proof.
  intros M W. unfold cells_pos.
  destruct (get_cell t 0 0) as [y|] eqn:E.
  2:{ cbn [cells_pos_run cells_step]. rewrite E. constructor. }
  assert (B : 0 < t_row_cnt t /\ 0 < t_col_cnt t) by (apply W; exists y; now apply get_cell_at).
  assert (G : forall fuel r c, c < t_col_cnt t ->
    (forall r' c', c' < t_col_cnt t -> r' < r \/ r' = r /\ c' < c -> present t r' c') ->
    NoDup (map fst (cells_pos_run fuel t (r, c)))).
  { induction fuel as [|f IH]; intros r c Hc Hb; [constructor|].
    cbn [cells_pos_run cells_step]. destruct (get_cell t r c) as [z|] eqn:Ez; [|constructor].
    assert (Pr : present t r c) by (exists z; now apply get_cell_at).
    cbn [map fst snd].
    destruct (c + 1 <? t_col_cnt t) eqn:E1; [|destruct (r + 1 <? t_row_cnt t) eqn:E2].
    - apply Nat.ltb_lt in E1.
      assert (Hb' : forall r' c', c' < t_col_cnt t -> r' < r \/ r' = r /\ c' < c + 1 -> present t r' c').
      { intros r' c' Hc' L. destruct (Nat.eq_dec r' r) as [->|N]; [destruct (Nat.eq_dec c' c) as [->|N']|]; auto; apply Hb; auto; lia. }
      constructor; [|now apply IH].
      intro I. apply in_map_iff in I as ([p x] & Ep & I). cbn in Ep. subst p.
      apply cells_pos_run_in in I; auto. cbn in I. lia.
    - apply Nat.ltb_ge in E1.
      assert (Hb' : forall r' c', c' < t_col_cnt t -> r' < r + 1 \/ r' = r + 1 /\ c' < 0 -> present t r' c').
      { intros r' c' Hc' L. destruct (Nat.eq_dec r' r) as [->|N]; [destruct (Nat.eq_dec c' c) as [->|N']|]; auto; apply Hb; auto; lia. }
      constructor; [|apply IH; auto; lia].
      intro I. apply in_map_iff in I as ([p x] & Ep & I). cbn in Ep. subst p.
      apply cells_pos_run_in in I; auto; try lia. cbn in I. lia.
    - destruct f as [|f']; [repeat constructor; intros []|]. cbn [cells_pos_run cells_step].
      rewrite (outside_none t _ _ M W (le_n _)). repeat constructor. intros []. }
  apply G; [lia|]. intros; lia.
Qed.

(** * The texts of cells *)

Definition text_of (c : cell) (s : str) : Prop :=
  match c with
  | CContent x => exists u, run_vw (container_vw cfg lossy x) = Some u /\ s = pad_cell cfg u
  | CSpan FromLeft => s = pad_cell cfg (bs ">")
  | CSpan FromAbove => s = pad_cell cfg (bs "\/")
  | CAlign _ => False
  end.

Lemma text_of_det c s s' : text_of c s -> text_of c s' -> s = s'.
Proof.
  destruct c as [x|[]|a]; cbn; try congruence; try tauto.
  intros (u & E & ->) (u' & E' & ->). congruence.
Qed.

Lemma fixed_cells_some ct n l : exists m, fixed_cells cfg lossy (Vst ct n false) l = Some m /\
  (forall p s, In (p, s) m <-> exists x, In (p, x) l /\ text_of (l_val x) s) /\
  (forall p, In p (map fst m) -> In p (map fst l)) /\ (NoDup (map fst l) -> NoDup (map fst m)).
Proof.
  induction l as [|[p x] l (m & E & Hm & Hk & Hn)].
  { exists []. cbn. split; auto. split; [|split; auto]. intros. split; [tauto|]. intros (x & [] & _). }
  cbn [fixed_cells]. rewrite E.
  assert (C : (exists s, cell_text cfg lossy (Vst ct n false) (l_val x) = Some (Some s) /\ text_of (l_val x) s) \/
              (cell_text cfg lossy (Vst ct n false) (l_val x) = Some None /\ forall s, ~ text_of (l_val x) s)).
  { destruct (l_val x) as [y|[]|a]; cbn; eauto.
    destruct (container_runs y) as (u & E1 & E2). rewrite E2. cbn. left. eauto. }
  destruct C as [(s & -> & T)|[-> T]].
  - exists ((p, s) :: m). split; auto. split; [|split].
    + intros q u. cbn. rewrite Hm. split.
      * intros [I|(y & I & J)]; [injection I as <- <-; eauto | eauto].
      * intros (y & [I|I] & J); [|right; eauto]. injection I as -> ->. left. f_equal. eapply text_of_det; eauto.
    + cbn. intros q [I|I]; auto.
    + cbn. intro N. inversion_clear N. constructor; auto.
  - exists m. split; auto. split; [|split].
    + intros q u. rewrite Hm. cbn. split.
      * intros (y & I & J); eauto.
      * intros (y & [I|I] & J); [|eauto]. injection I as -> ->. destruct (T _ J).
    + cbn. auto.
    + cbn. intro N. inversion_clear N. auto.
Qed.

Lemma fixed_get_in m : NoDup (map fst m) -> forall p s, fixed_get p m = Some s <-> In (p, s) m.
Proof.
  induction m as [|[q u] m IH]; intros N p s; cbn; [split; [discriminate|tauto]|].
  inversion_clear N as [|? ? N1 N2]. destruct (cellpos_eqb p q) eqn:E.
  - apply cellpos_eqb_eq in E. subst q. split.
    + intro H. injection H as ->. auto.
    + intros [H|H]; [congruence|]. destruct N1. apply in_map_iff. now exists (p, s).
  - rewrite IH by auto. split; auto. intros [H|H]; auto. injection H as <- <-.
    rewrite (proj2 (cellpos_eqb_eq q q) eq_refl) in E. discriminate.
Qed.

(** * Outcomes *)

(** From any state that skips nothing, [f] panics when [P] holds and otherwise
    ends in such a state at the same indentation. *)
Definition outcome (f : vm) (P : Prop) : Prop :=
  forall ct n, (f (Vst ct n false) = VPanic /\ P) \/
               (exists ct', f (Vst ct n false) = VOk (Vst ct' n false) /\ ~ P).

Lemma outcome_iff f P Q : outcome f P -> (P <-> Q) -> outcome f Q.
Proof. intros H E ct n. destruct (H ct n) as [[A B]|(c & A & B)]; [left | right; exists c]; tauto. Qed.
Lemma outcome_writer f : writer f -> outcome f False.
Proof. intros [ss E] ct n. right. rewrite E, writes_plain. eauto. Qed.
Lemma outcome_seq f g P Q : outcome f P -> outcome g Q -> outcome (f ;; g) (P \/ Q).
Proof.
  intros F G ct n. unfold vseq. destruct (F ct n) as [[-> A]|(c & -> & A)]; [auto|].
  destruct (G c n) as [[-> B]|(c' & -> & B)]; [auto|]. right. exists c'. tauto.
Qed.
Lemma outcome_fine f g : outcome f False -> outcome g False -> outcome (f ;; g) False.
Proof. intros F G. eapply outcome_iff; [apply (outcome_seq _ _ _ _ F G) | tauto]. Qed.
Lemma outcome_each {A} (f : A -> vm) (P : A -> Prop) l :
  Forall (fun x => outcome (f x) (P x)) l -> outcome (veach f l) (Exists P l).
Proof.
  induction 1 as [|x l H _ IH].
  - intros ct n. right. exists ct. split; auto. intro X. inversion X.
  - intros ct n. rewrite veach_cons.
    destruct (outcome_seq _ _ _ _ H IH ct n) as [[E B]|(c & E & B)]; rewrite E; [left | right; exists c];
      (split; [reflexivity|]); rewrite Exists_cons; auto.
Qed.
Lemma outcome_each_fine {A} (f : A -> vm) l :
  Forall (fun x => outcome (f x) False) l -> outcome (veach f l) False.
Proof.
  intro H. apply (outcome_each f (fun _ => False)) in H. eapply outcome_iff; [exact H|].
  split; [|tauto]. intro X. apply Exists_exists in X as (x & _ & []).
Qed.
Lemma outcome_indent s : outcome (write_indent s) False.
Proof.
  intros ct n. right. unfold write_indent. cbn [v_content v_indent].
  assert (W : exists ct', veach wr (repeat s n) (Vst ct n false) = VOk (Vst ct' n false) /\ ~ False)
    by (rewrite writes_plain; eauto).
  destruct ct; [exact W|]. destruct (ends_with_nl _); [exact W | eauto].
Qed.
Lemma outcome_trim f : writer f -> outcome (and_trim f) False.
Proof.
  intros [ss E] ct n. right. unfold and_trim, skip_whitespace, trim_end, vseq. cbn [v_content v_indent].
  rewrite E.
  assert (W : forall b c, exists c' b', veach wr ss (Vst c n b) = VOk (Vst c' n b')).
  { clear. induction ss as [|s ss IH]; intros b c; [cbn; unfold vskip; eauto|].
    rewrite veach_cons. unfold vseq, wr at 1. cbn [v_content v_indent v_skip]. destruct b; apply IH. }
  destruct (W true ct) as (c' & b' & ->). cbn [v_content v_indent]. eauto.
Qed.
Lemma outcome_trim_if b f : writer f -> outcome (trim_if b f) False.
Proof. destruct b; [apply outcome_trim | apply outcome_writer]. Qed.
Lemma outcome_wr s : outcome (wr s) False.
Proof. apply outcome_writer, writer_wr. Qed.
Lemma outcome_wr_if b s : outcome (wr_if b s) False.
Proof. apply outcome_writer, writer_if. Qed.
Lemma outcome_none : outcome vskip False.
Proof. apply outcome_writer, writer_none. Qed.
Lemma outcome_container c : outcome (container_vw cfg lossy c) False.
Proof. apply outcome_writer, writer_container. Qed.
Lemma outcome_and_indent f P : outcome f P -> outcome (and_indent f) P.
Proof.
  intros H ct n. unfold and_indent. cbn [v_content v_indent v_skip].
  destruct (H ct (n + 1)) as [[-> A]|(c & -> & A)]; [auto|]. right. cbn [v_content v_indent v_skip].
  replace (n + 1 - 1) with n by lia. eauto.
Qed.

Local Hint Resolve outcome_wr outcome_wr_if outcome_none outcome_indent outcome_fine outcome_container : oc.

Lemma outcome_all {A} (f : A -> vm) l : (forall x, outcome (f x) False) -> outcome (veach f l) False.
Proof. intro H. apply outcome_each_fine, Forall_forall. auto. Qed.

Lemma outcome_defs ds : forall first, outcome (defs_vw cfg lossy first ds) False.
Proof.
  induction ds as [|d ds IH]; intro first; cbn [defs_vw]; auto with oc.
  apply outcome_fine; [destruct (first && negb (vc_dl_alone cfg)); auto with oc|].
  apply outcome_fine; [apply outcome_trim_if, writer_container|]. apply outcome_fine; auto. apply outcome_wr.
Qed.

(** Printing a table panics: an alignment marker does not fit its column. *)
Definition needs (a : col_align) : nat :=
  match a with AlNone => 0 | AlLeft => 1 | AlRight => 1 | AlCenter => 2 end.
Definition misfit (t : table) : Prop :=
  exists r c x a m, r < t_row_cnt t /\ c < t_col_cnt t /\ get_cell t r c = Some x /\ l_val x = CAlign a /\
    fixed_cells cfg lossy (Vst [] 0 false) (cells_pos t) = Some m /\ column_size t m c < needs a.

Lemma fixed_cells_state ct n l :
  fixed_cells cfg lossy (Vst ct n false) l = fixed_cells cfg lossy (Vst [] 0 false) l.
Proof.
  induction l as [|[p x] l IH]; cbn [fixed_cells]; auto. rewrite IH.
  replace (cell_text cfg lossy (Vst ct n false) (l_val x)) with (cell_text cfg lossy (Vst [] 0 false) (l_val x)); auto.
  destruct (l_val x) as [y|[]|a]; cbn; auto.
  destruct (container_runs y) as (u & _ & E). rewrite !E. reflexivity.
Qed.

Lemma outcome_align a n : outcome (align_vw a n) (n < needs a).
Proof.
  destruct a; cbn [align_vw needs].
  - eapply outcome_iff; [apply outcome_wr | lia].
  - destruct (n <? 1) eqn:E; [apply Nat.ltb_lt in E; left; auto | apply Nat.ltb_ge in E].
    eapply outcome_iff; [auto with oc|lia].
  - destruct (n <? 2) eqn:E; [apply Nat.ltb_lt in E; left; auto | apply Nat.ltb_ge in E].
    eapply outcome_iff; [auto with oc|lia].
  - destruct (n <? 1) eqn:E; [apply Nat.ltb_lt in E; left; auto | apply Nat.ltb_ge in E].
    eapply outcome_iff; [auto with oc|lia].
Qed.

Lemma fixed_spec t : is_map t -> counts_ok t ->
  exists m, (forall ct n, fixed_cells cfg lossy (Vst ct n false) (cells_pos t) = Some m) /\ NoDup (map fst m) /\
    forall r c s, fixed_get (CellPos r c) m = Some s <-> exists x, at_ t r c x /\ reached t r c /\ text_of (l_val x) s.
Proof.
  intros M W. destruct (fixed_cells_some [] 0 (cells_pos t)) as (m & E & Hm & _ & Hn).
  exists m. split; [intros; now rewrite fixed_cells_state|].
  specialize (Hn (cells_pos_nodup t M W)). split; auto.
  intros r c s. rewrite fixed_get_in, Hm by auto. split.
  - intros (x & I & J). apply cells_pos_in in I; auto. exists x. tauto.
  - intros (x & I & J & K). exists x. split; auto. now apply cells_pos_in.
Qed.

Definition cell_misfit (t : table) (m : list (cellpos * str)) (r c : nat) : Prop :=
  exists x a, get_cell t r c = Some x /\ l_val x = CAlign a /\ column_size t m c < needs a.

Lemma outcome_cell t m r c : is_map t -> 
  (forall s, fixed_get (CellPos r c) m = Some s -> exists x, at_ t r c x /\ text_of (l_val x) s) ->
  outcome (cell_vw t m r c) (cell_misfit t m r c).
Proof.
  intros M H. unfold cell_vw.
  eapply outcome_iff; [apply outcome_seq; [|apply outcome_wr] |].
  2:{ instantiate (1 := cell_misfit t m r c). tauto. }
  destruct (fixed_get (CellPos r c) m) as [s|].
  - eapply outcome_iff; [auto with oc|]. split; [tauto|]. intros (x & a & E & V & _).
    destruct (H s eq_refl) as (y & A & T). apply get_cell_at in A; auto.
    assert (x = y) by congruence. subst y. rewrite V in T. destruct T.
  - unfold cell_misfit. destruct (get_cell t r c) as [[[y|[]|a] g]|].
    4:{ eapply outcome_iff; [apply outcome_align|]. split.
        - intro L. exists (Loc (CAlign a) g), a. auto.
        - intros (x & b & E & V & L). injection E as <-. cbn in V. congruence. }
    all: (eapply outcome_iff; [apply outcome_wr|]); (split; [tauto|]);
      intros (x & a & E & V & _); try discriminate E; injection E as <-; discriminate V.
Qed.

Lemma outcome_table t : is_map t -> counts_ok t -> outcome (table_vw cfg lossy t) (misfit t).
Proof.
  intros M W. destruct (fixed_spec t M W) as (m & E & N & H).
  assert (O : outcome (veach (fun r =>
        write_indent (vc_indent cfg) ;; wr_if (t_centered t) (bs "    ") ;; wr (bs "|")
        ;; veach (cell_vw t m r) (seq 0 (t_col_cnt t)) ;; wln)
        (seq 0 (t_row_cnt t))) (Exists (fun r => Exists (cell_misfit t m r) (seq 0 (t_col_cnt t))) (seq 0 (t_row_cnt t)))).
  { apply outcome_each. apply Forall_forall. intros r _.
    assert (O : outcome (veach (cell_vw t m r) (seq 0 (t_col_cnt t))) (Exists (cell_misfit t m r) (seq 0 (t_col_cnt t)))).
    { apply outcome_each. apply Forall_forall. intros c _. apply outcome_cell; auto.
      intros s F. apply H in F as (x & A & _ & T). eauto. }
    eapply outcome_iff.
    - apply outcome_seq; [apply outcome_indent|]. apply outcome_seq; [apply outcome_wr_if|].
      apply outcome_seq; [apply outcome_wr|]. apply outcome_seq; [exact O | apply outcome_wr].
    - tauto. }
  intros ct n. unfold table_vw. rewrite E. eapply outcome_iff; [exact O|].
  rewrite Exists_exists. split.
  - intros (r & Ir & X). apply Exists_exists in X as (c & Ic & (x & a & A & B & C)).
    apply in_seq in Ir, Ic. exists r, c, x, a, m. repeat split; auto; lia.
  - intros (r & c & x & a & m' & A1 & A2 & A3 & A4 & A5 & A6). rewrite E in A5. injection A5 as <-.
    exists r. rewrite in_seq. split; [lia|]. apply Exists_exists. exists c. rewrite in_seq. split; [lia|].
    exists x, a. auto.
Qed.

(** * Pages *)

Definition good (t : table) : Prop := is_map t /\ counts_ok t.

Lemma outcome_block : forall b, Forall good (tables_in b) ->
  outcome (block_vw cfg roman lossy b) (Exists misfit (tables_in b)).
Proof.
  assert (N : forall f, outcome f False -> outcome f (Exists misfit [])).
  { intros f F. eapply outcome_iff; [exact F|]. split; [tauto|]. intro X. inversion X. }
  apply (block_ind' (fun b => Forall good (tables_in b) -> outcome (block_vw cfg roman lossy b) (Exists misfit (tables_in b)))
    (fun i => Forall good (item_tables i) -> outcome (item_vw cfg roman lossy i) (Exists misfit (item_tables i)))).
  - intros b Hb G. destruct b; cbn [block_vw tables_in]; try (apply N); try tauto.
    + apply outcome_all. intro l. repeat apply outcome_fine; auto with oc; [apply outcome_trim_if, writer_wr | apply outcome_wr].
    + apply outcome_all. intro l. apply outcome_fine; auto with oc. apply outcome_fine; [apply outcome_trim_if, writer_container|].
      apply outcome_fine; auto with oc. apply outcome_fine; [|apply outcome_defs].
      destruct (_ || _); [apply outcome_wr | apply outcome_none].
    + apply outcome_fine; [apply outcome_wr | apply outcome_wr].
    + unfold header_vw. repeat apply outcome_fine; auto with oc; try apply outcome_wr;
        try (apply outcome_all; intro; apply outcome_wr). apply outcome_trim_if, writer_container.
    + destruct (Hb items eq_refl).
    + unfold math_vw. repeat apply outcome_fine; auto with oc; try apply outcome_wr.
      * destruct (mb_env _); auto with oc.
      * apply outcome_all. intro. repeat apply outcome_fine; auto with oc. apply outcome_wr.
    + unfold paragraph_vw. apply outcome_all. intro. repeat apply outcome_fine; auto with oc; [apply outcome_trim_if, writer_container | apply outcome_wr].
    + unfold placeholder_vw. apply outcome_fine; [|apply outcome_wr]. destruct p; auto 10 with oc.
    + unfold code_vw. repeat apply outcome_fine; auto with oc; try apply outcome_wr.
      * destruct (cb_lang _); auto with oc.
      * apply outcome_writer, writer_pairs.
      * apply outcome_all. intro. repeat apply outcome_fine; auto with oc. apply outcome_wr.
    + apply Forall_inv in G. destruct G as [M W]. eapply outcome_iff; [apply outcome_table; auto|].
      rewrite Exists_cons. split; auto. intros [X|X]; auto. inversion X.
  - intros items IH G. cbn [block_vw tables_in] in *.
    assert (O : outcome (veach (fun x => item_vw cfg roman lossy (l_val x)) items)
                  (Exists (fun x => Exists misfit (item_tables (l_val x))) items)).
    { apply outcome_each. rewrite Forall_forall in *. intros x I. apply IH; auto.
      apply Forall_forall. intros t J. apply G. apply in_flat_map. eauto. }
    eapply outcome_iff; [exact O|]. now rewrite Exists_flat_map.
  - intros ty suf pos contents todo IH G. cbn [item_vw item_tables] in *.
    destruct contents as [|c cs]; [apply N, outcome_none|].
    apply Forall_inv in IH as H1. apply Forall_inv_tail in IH as H2.
    cbn [flat_map] in *. apply Forall_app in G as [G1 G2].
    eapply outcome_iff.
    + apply outcome_seq; [|apply outcome_seq].
      * repeat apply outcome_fine; auto with oc. destruct todo; auto 10 with oc.
      * apply outcome_and_indent. apply H1. exact G1.
      * apply (outcome_each _ (fun x => Exists misfit (tables_in (l_val x)))).
        rewrite Forall_forall in *. intros x I. apply outcome_and_indent, H2; auto.
        apply Forall_forall. intros t J. apply G2. apply in_flat_map. eauto.
    + rewrite Exists_app, Exists_flat_map. tauto.
Qed.

Lemma outcome_page p : Forall good (page_tables p) ->
  outcome (page_vw cfg roman lossy p) (Exists misfit (page_tables p)).
Proof.
  unfold page_tables. induction p as [|b p IH]; intro G; cbn [page_vw flat_map] in *.
  - intros ct n. right. exists ct. split; auto. intro X. inversion X.
  - apply Forall_app in G as [G1 G2].
    eapply outcome_iff.
    + apply outcome_seq; [apply outcome_block; exact G1|]. apply outcome_seq; [|apply IH; exact G2].
      instantiate (1 := False). destruct p; [apply outcome_none|]. destruct (vc_separate cfg); [apply outcome_wr | apply outcome_none].
    + rewrite Exists_app. tauto.
Qed.

End Out.

Lemma run_outcome f P : outcome f P -> (run_vw f = None <-> P).
Proof.
  intro H. unfold run_vw. destruct (H [] 0) as [[-> A]|(c & -> & A)]; [tauto|]. split; [discriminate|tauto].
Qed.
