(** Reading back tables. *)
From Verif Require Import Base ModelSpan ModelComb ModelAst ModelTable ModelLink ModelInline ModelBlock ModelElem
  SpecDoc SpecBlock SpecTree SpecSpan SpecEq SpecRound ProofBase ProofBytes ProofContract ProofPrim ProofInline ProofLink ProofText
  ProofBlock ProofFence ProofDefs ProofTable ProofList ProofPage ProofTree ProofClaims2 ProofSpan ProofRound ProofRound2 ProofRound3
  ProofRound4 ProofRound5 ProofRound6 ProofRound7 ProofRound8 ProofRound9 ProofRound13 ProofRound15.
From Verif Require SpecElem ProofEq.
From Coq Require Import Permutation.
Local Open Scope nat_scope.

Section Table.
Variable up : str -> option uri.
Variable dp : str -> option date.
Variable lossy : str -> str.
(** The scheme of a URI is the text before its first colon. *)
Hypothesis Hsch : forall t u s, up t = Some u -> u_scheme u = Some s -> In s web_schemes ->
  exists w r, t = w ++ bs ":" ++ r /\ map lower w = s.
Local Notation cont_src := (cont_src lossy).
Local Notation cell_src := (cell_src lossy).
Local Notation cell_size := (cell_size lossy).
Local Notation cell_fine := (cell_fine up dp lossy).

(** * Cells *)

Definition same_cell (x c : cell) : Prop := forall cu, n_cell cu nowhere x = n_cell cu nowhere c.
Lemma mark_space m b s r : sees s ([b_sp] ++ m ++ repeat b_sp b ++ x7c :: r) -> m <> [] -> nonblank_head m ->
  got s (delimited space0 (tag m) space0 s) (1 + (length m + b)) (fun _ => True).
Proof.
  intros H N Hd. unfold delimited, preceded, terminated. rewrite (space0_run s [b_sp] _ H); [|repeat constructor|].
  2: { intros c t E. destruct m as [|x m]; [congruence|]. cbn in E. injection E as <- _. exact (Hd _ _ eq_refl). }
  cbn [bind length]. pose proof (sees_mv _ _ _ H) as H1. cbn [length] in H1. apply got_shift. rewrite (tag_run m _ _ H1). cbn [bind].
  apply got_shift. pose proof (sees_mv _ _ _ H1) as H2.
  rewrite (space0_run _ (repeat b_sp b) _ H2).
  - cbn [bind]. rewrite repeat_length. now apply got_ok.
  - clear. induction b; constructor; auto.
  - intros c t E. injection E as <- _. reflexivity.
Qed.
Lemma no_mark m s l : sees s l -> (forall a q, l = a ++ q -> blanks a -> nonblank_head q -> forall r, q <> m ++ r) ->
  fails (delimited space0 (tag m) space0 s).
Proof.
  intros H N. destruct (blanks_split l) as (a & q & -> & Ba & Hq). unfold delimited, preceded, terminated. rewrite (space0_run s a q H Ba Hq). cbn [bind].
  rewrite tag_none; [exact I|]. rewrite (proj2 (sees_mv _ _ _ H)). exact (N a q eq_refl Ba Hq).
Qed.
Lemma no_mark_head m s c l : sees s (c :: l) -> is_space c = false -> (forall r, m <> c :: r) -> m <> [] ->
  fails (delimited space0 (tag m) space0 s).
Proof.
  intros H N M Ne. apply (no_mark m s _ H). intros a q E Ba _ r ->. symmetry in E. apply (blanks_head a c _ l Ba N) in E as [-> E].
  destruct m as [|x m]; [congruence|]. injection E as -> _. exact (M m eq_refl).
Qed.
Lemma dashes_none s c l : sees s (c :: l) -> c <> x2d -> take_line_while1 (pchar x2d) s = Err.
Proof.
  intros H N. unfold take_line_while1, verify. rewrite (take_char_run x2d 0 s (c :: l) H) by (try discriminate; intros x E; injection E as -> _; congruence).
  cbn [bind]. unfold non_empty, sp_is_empty. pose proof (sees_tk s [] (c :: l) H) as T. cbn [length] in T. now rewrite (sees_len _ _ T).
Qed.
Lemma opt_char_none c s b l : sees s (b :: l) -> b <> c -> opt (pchar c) s = Ok s None.
Proof. intros H N. unfold opt. rewrite pchar_err; [reflexivity|]. intros r E. rewrite (proj2 H) in E. injection E as -> _. congruence. Qed.
Lemma opt_char_some c s l : sees s (c :: l) -> opt (pchar c) s = Ok (mv 1 s) (Some c).
Proof. intro H. unfold opt. now rewrite (pchar_run c s l H). Qed.
Lemma align_none s c l : sees s (c :: l) -> c <> x2d -> c <> x3a -> fails (column_align s).
Proof.
  intros H N1 N2. unfold column_align. rewrite (opt_char_none x3a s c l H N2). cbn [bind]. now rewrite (dashes_none s c l H N1).
Qed.
Lemma dashes_run n s c l : sees s (repeat x2d n ++ c :: l) -> 0 < n -> c <> x2d ->
  take_line_while1 (pchar x2d) s = Ok (mv n s) (tk n s) /\ sees (mv n s) (c :: l).
Proof.
  intros H L N. split.
  - apply (take_char1_run x2d n s _ H L); try discriminate. intros x E. injection E as -> _. congruence.
  - pose proof (sees_mv _ _ _ H) as H1. now rewrite repeat_length in H1.
Qed.
Lemma align_run a w s l : sees s (cell_src w (CAlign a) ++ x7c :: l) -> cell_size (CAlign a) <= w ->
  got s (column_align s) w (fun x => x = a).
Proof.
  intros H L. unfold column_align. destruct a; cbn [SpecRound.cell_src SpecRound.cell_size] in *.
  - destruct (dashes_run w s x7c l H ltac:(lia) ltac:(discriminate)) as [D1 D2].
    destruct w as [|w]; [lia|]. rewrite (opt_char_none x3a s x2d (repeat x2d w ++ x7c :: l) H ltac:(discriminate)). cbn [bind]. rewrite D1. cbn [bind].
    rewrite (opt_char_none x3a _ _ _ D2 ltac:(discriminate)). cbn [bind]. now apply got_ok.
  - rewrite <- app_assoc in H. rewrite (opt_char_some x3a s _ H). cbn [bind].
    pose proof (sees_mv s [x3a] _ H) as H1. change (length [x3a]) with 1 in H1. apply (got_n s _ (1 + (w - 1)) w); [|lia]. apply got_shift.
    destruct (dashes_run _ _ x7c l H1 ltac:(lia) ltac:(discriminate)) as [D1 D2]. rewrite D1. cbn [bind].
    rewrite (opt_char_none x3a _ _ _ D2 ltac:(discriminate)). cbn [bind]. now apply got_ok.
  - rewrite <- !app_assoc in H. rewrite (opt_char_some x3a s _ H). cbn [bind].
    pose proof (sees_mv s [x3a] _ H) as H1. change (length [x3a]) with 1 in H1. apply (got_n s _ (1 + ((w - 2) + 1)) w); [|lia]. apply got_shift.
    destruct (dashes_run _ _ x3a _ H1 ltac:(lia) ltac:(discriminate)) as [D1 D2]. rewrite D1. cbn [bind]. apply got_shift.
    rewrite (opt_char_some x3a _ _ D2). cbn [bind]. now apply got_ok.
  - rewrite <- app_assoc in H. destruct (dashes_run (w - 1) s x3a _ H ltac:(lia) ltac:(discriminate)) as [D1 D2].
    pose proof H as H0. destruct (w - 1) as [|v] eqn:E; [lia|]. rewrite (opt_char_none x3a s x2d _ H0 ltac:(discriminate)). cbn [bind]. rewrite D1. cbn [bind].
    rewrite (opt_char_some x3a _ _ D2). cbn [bind]. rewrite mv_mv. replace (S v + 1) with w by lia. now apply got_ok.
Qed.
Lemma align_byte w a r : cell_size (CAlign a) <= w -> exists c l, cell_src w (CAlign a) ++ r = c :: l /\ (c = x2d \/ c = x3a).
Proof.
  intro L. destruct a; cbn [SpecRound.cell_src SpecRound.cell_size] in *.
  - destruct w; [lia|]. eexists _, _. split; [reflexivity|auto].
  - eexists _, _. split; [reflexivity|auto].
  - eexists _, _. split; [reflexivity|auto].
  - destruct (w - 1) eqn:E; [lia|]. eexists _, _. split; [reflexivity|auto].
Qed.
Lemma align_len w a : cell_size (CAlign a) <= w -> length (cell_src w (CAlign a)) = w.
Proof.
  destruct a; cbn [SpecRound.cell_src SpecRound.cell_size]; intro L; rewrite ?app_length, ?repeat_length; change (length (bs ":")) with 1; rewrite ?app_length, ?repeat_length;
    change (length (bs ":")) with 1; lia.
Qed.
Lemma cell_no_mark w x m r : cell_fine w (CContent x) -> In m [bs ">"; bs "\/"] ->
  forall a q, cont_src x ++ x7c :: r = a ++ q -> blanks a -> nonblank_head q -> forall z, q <> m ++ z.
Proof.
  intros (_ & _ & _ & _ & Nb & _ & _ & _ & F) I a q E Ba Hq z ->. symmetry in E.
  assert (N7 : ~ In x7c (a ++ m)).
  { intro J. apply in_app_or in J as [J|J]; [pose proof (proj1 (Forall_forall _ _) Ba _ J); discriminate|].
    cbn in I. destruct I as [<-|[<-|[]]]; cbn in J; intuition discriminate. }
  rewrite app_assoc in E. apply app_eq_app in E as (p & [[E1 E2]|[E1 E2]]).
  - destruct p as [|c p].
    + apply (F a m [] Ba I). rewrite app_nil_r in *. now rewrite E1.
    + cbn in E2. injection E2 as <- _. apply N7. rewrite E1. apply in_or_app. right. now left.
  - apply (F a m p Ba I). now rewrite app_assoc.
Qed.
Lemma cell_run w c s r : sees s (cell_src w c ++ x7c :: r) -> ctxt s (bs "|") -> cell_fine w c -> cell_size c <= w ->
  got s (p_cell up dp s) (length (cell_src w c)) (fun x => same_cell (l_val x) c).
Proof.
  intros H X F L. unfold p_cell. apply (got_located s _ _ (fun x => same_cell x c)). destruct c as [x|[]|a].
  - pose proof F as (F1 & F2 & F3 & F4 & F5 & F6 & (b & q & Eb & Sb) & _ & F7). cbn [SpecRound.cell_src] in *.
    apply alt_skip. { apply fails_pmap, fails_value, (no_mark _ s _ H). exact (cell_no_mark w x _ r F (or_intror (or_introl eq_refl))). }
    apply alt_skip. { apply fails_pmap, fails_value, (no_mark _ s _ H). exact (cell_no_mark w x _ r F (or_introl eq_refl)). }
    apply alt_skip. { apply fails_pmap. rewrite Eb in H. apply (align_none s b (q ++ x7c :: r) H); intros ->; discriminate. }
    apply alt_take. eapply (got_pmap s _ _ _ (fun y => same_cont y x)).
    + eapply got_map_parser.
      * apply (tlu1_run (bs "|") s (cont_src x) _ H); [rewrite Eb; discriminate|discriminate|cbn; lia|]. now apply first_stop_byte.
      * unfold container_inner. eapply got_pmap; [|intros y Hy; exact Hy].
        refine (container_after up dp lossy Hsch x (tk (length (cont_src x)) s) [] (bs "|") _ (or_introl eq_refl) X F1 F2 F3).
        rewrite app_nil_r. exact (sees_tk _ _ _ H).
    + intros y Hy cu. cbn [n_cell]. f_equal. apply Hy.
  - cbn [SpecRound.cell_src SpecRound.cell_size] in *. change (bs " >" ++ repeat b_sp (w - 2)) with ([b_sp] ++ bs ">" ++ repeat b_sp (w - 2)) in *.
    rewrite <- !app_assoc in H.
    apply alt_skip.
    { apply fails_pmap, fails_value, (no_mark _ s _ H). intros a q E Ba Hq z ->. cbn [app] in E.
      assert (E' : [b_sp] ++ x3e :: (repeat b_sp (w - 2) ++ x7c :: r) = a ++ x5c :: (x2f :: z)) by exact E.
      destruct (blanks_unique _ _ _ _ _ _ E' ltac:(repeat constructor) Ba eq_refl eq_refl) as (_ & K & _). discriminate. }
    apply alt_take. eapply (got_pmap s _ _ _ (fun y => y = FromLeft)); [|intros y -> cu; reflexivity].
    eapply got_value. eapply got_n; [exact (mark_space (bs ">") (w - 2) s r H ltac:(discriminate) ltac:(intros c t E; injection E as <- _; reflexivity))|].
    rewrite !app_length, repeat_length. reflexivity.
  - cbn [SpecRound.cell_src SpecRound.cell_size] in *. change (bs " \/" ++ repeat b_sp (w - 3)) with ([b_sp] ++ bs "\/" ++ repeat b_sp (w - 3)) in *.
    rewrite <- !app_assoc in H.
    apply alt_take. eapply (got_pmap s _ _ _ (fun y => y = FromAbove)); [|intros y -> cu; reflexivity].
    eapply got_value. eapply got_n; [exact (mark_space (bs "\/") (w - 3) s r H ltac:(discriminate) ltac:(intros c t E; injection E as <- _; reflexivity))|].
    rewrite !app_length, repeat_length. reflexivity.
  - destruct (align_byte w a (x7c :: r) L) as (c & l & Ec & Kc).
    assert (Sc : is_space c = false) by (destruct Kc as [-> | ->]; reflexivity).
    assert (Mk : forall m s', (forall t, m <> c :: t) -> m <> [] -> s' = s -> fails (delimited space0 (tag m) space0 s')).
    { intros m s' M Ne ->. rewrite Ec in H. exact (no_mark_head m s c l H Sc M Ne). }
    apply alt_skip. { apply fails_pmap, fails_value, Mk; auto; [|discriminate]. intros t E. destruct Kc as [-> | ->]; discriminate. }
    apply alt_skip. { apply fails_pmap, fails_value, Mk; auto; [|discriminate]. intros t E. destruct Kc as [-> | ->]; discriminate. }
    apply alt_take. eapply (got_pmap s _ _ _ (fun y => y = a)); [|intros y -> cu; reflexivity].
    rewrite align_len by exact L. exact (align_run a w s r H L).
Qed.
Lemma no_cell s k : sees s (b_nl :: k) -> fails (p_cell up dp s).
Proof.
  intro H. unfold p_cell. apply fails_located. cbn [alt].
  apply fails_palt. { apply fails_pmap, fails_value. apply (no_mark_head _ s b_nl k H); [reflexivity|intros r; discriminate|discriminate]. }
  apply fails_palt. { apply fails_pmap, fails_value. apply (no_mark_head _ s b_nl k H); [reflexivity|intros r; discriminate|discriminate]. }
  apply fails_palt. { apply fails_pmap, (align_none s b_nl k H); discriminate. }
  try apply fails_palt; try exact I.
  all: apply fails_pmap; unfold map_parser, take_line_until1, verify.
  all: rewrite (tlu_run (bs "|") s [] (b_nl :: k) H); [|discriminate|cbn; lia|].
  all: cbn [bind].
  all: try (unfold non_empty, sp_is_empty; pose proof (sees_tk s [] (b_nl :: k) H) as T; rewrite (sees_len _ _ T); exact I).
  all: apply (first_stop_line [bs "|"] [] (b_nl :: k)); [|intros p i _ Hi; cbn in Hi; lia].
  all: apply whole_nl; [intros []|intros x E; destruct x; discriminate].
Qed.

(** * Rows *)

Definition cell_ok (p : nat * cell) : Prop := cell_fine (fst p) (snd p) /\ cell_size (snd p) <= fst p.
Definition cells_src (ps : list (nat * cell)) : str := flat_map (fun p => x7c :: cell_src (fst p) (snd p)) ps.
Definition row_src (ps : list (nat * cell)) : str := cells_src ps ++ bs "|".
Definition same_row (xs : list (located cell)) (ps : list (nat * cell)) : Prop :=
  Forall2 (fun x p => same_cell (l_val x) (snd p)) xs ps.
Lemma row_src_eq ps : bs "|" ++ flat_map (fun p => cell_src (fst p) (snd p) ++ bs "|") ps = row_src ps.
Proof.
  unfold row_src, cells_src. induction ps as [|p ps IH]; [reflexivity|]. cbn [flat_map]. rewrite <- !app_assoc, IH. reflexivity.
Qed.
Lemma ctxt_bar s r : sees s (x7c :: r) -> ctxt (mv 1 s) (bs "|").
Proof. intro H. exists (consumed s). split; [exact (consumed_mv s [x7c] r H)|discriminate]. Qed.
Lemma cells_run fuel s ps k : sees s (cells_src ps ++ x7c :: b_nl :: k) -> Forall cell_ok ps -> remaining_len s < fuel ->
  got s (sep_loop fuel (pchar x7c) (deeper (p_cell up dp)) s) (length (cells_src ps)) (fun xs => same_row xs ps).
Proof.
  intros H F. revert fuel s H. induction F as [|p ps [Fp Lp] F IH]; intros fuel s H L; (destruct fuel as [|fuel]; [lia|]); cbn [sep_loop].
  - cbn [cells_src flat_map app length] in *. rewrite (pchar_run x7c s _ H).
    assert (span_eqb (mv 1 s) s = false) as ->.
    { unfold span_eqb. cbn. assert (sp_start s + 1 =? sp_start s = false) as -> by (apply Nat.eqb_neq; lia). reflexivity. }
    pose proof (sees_mv s [x7c] _ H) as H1. change (length [x7c]) with 1 in H1.
    assert (N : fails (deeper (p_cell up dp) (mv 1 s))).
    { unfold deeper. apply fails_bind. exact (no_cell _ k (sees_deeper _ _ H1)). }
    destruct (deeper (p_cell up dp) (mv 1 s)); cbn in N; try contradiction; [apply got_ret; constructor|exact I].
  - change (cells_src (p :: ps)) with (x7c :: cell_src (fst p) (snd p) ++ cells_src ps) in *.
    assert (H0 : sees s ([x7c] ++ cell_src (fst p) (snd p) ++ cells_src ps ++ x7c :: b_nl :: k)).
    { cbn [app] in *. rewrite <- app_assoc in H. exact H. }
    rewrite (pchar_run x7c s _ H0).
    assert (span_eqb (mv 1 s) s = false) as ->.
    { unfold span_eqb. cbn. assert (sp_start s + 1 =? sp_start s = false) as -> by (apply Nat.eqb_neq; lia). reflexivity. }
    pose proof (sees_mv s [x7c] _ H0) as H1. change (length [x7c]) with 1 in H1.
    assert (G : got (mv 1 s) (deeper (p_cell up dp) (mv 1 s)) (length (cell_src (fst p) (snd p))) (fun x => same_cell (l_val x) (snd p))).
    { apply got_deeper. assert (Ex : exists r, cells_src ps ++ x7c :: b_nl :: k = x7c :: r) by (destruct ps; cbn; eauto).
      destruct Ex as [r Ex]. apply (cell_run _ _ _ r); auto.
      - rewrite <- Ex. exact (sees_deeper _ _ H1).
      - apply ctxt_deeper. exact (ctxt_bar s _ H0). }
    destruct (deeper (p_cell up dp) (mv 1 s)) as [s2 x| | |]; cbn in G; try contradiction; [|exact I]. destruct G as [-> G].
    pose proof (sees_mv _ _ _ H1) as H2.
    assert (L2 : remaining_len (mv (length (cell_src (fst p) (snd p))) (mv 1 s)) < fuel).
    { rewrite (sees_len _ _ H2). rewrite (sees_len _ _ H0) in L. rewrite !app_length in *. cbn [length] in *. lia. }
    specialize (IH fuel _ H2 L2). unfold got in IH |- *.
    destruct (sep_loop fuel (pchar x7c) (deeper (p_cell up dp)) (mv (length (cell_src (fst p) (snd p))) (mv 1 s))); cbn [bind]; try contradiction; auto.
    destruct IH as [-> IH]. rewrite !mv_mv. split; [f_equal; cbn [length]; rewrite app_length; lia|]. constructor; auto.
Qed.
Lemma row_run s ps k : sees s (row_src ps ++ b_nl :: k) -> ps <> [] -> Forall cell_ok ps ->
  got s (p_row up dp s) (S (length (row_src ps))) (fun xs => same_row xs ps).
Proof.
  intros H Ne F. destruct ps as [|p ps]; [congruence|]. inversion F as [|? ? [Fp Lp] Fs]; subst. unfold p_row.
  unfold row_src in *. rewrite <- app_assoc in H.
  change (cells_src (p :: ps)) with (x7c :: cell_src (fst p) (snd p) ++ cells_src ps) in *.
  assert (H0 : sees s ([x7c] ++ cell_src (fst p) (snd p) ++ cells_src ps ++ x7c :: b_nl :: k)).
  { cbn [app] in *. rewrite <- app_assoc in H. exact H. }
  unfold delimited, preceded, terminated, separated_list1. rewrite (pchar_run x7c s _ H0). cbn [bind].
  pose proof (sees_mv s [x7c] _ H0) as H1. change (length [x7c]) with 1 in H1.
  assert (G : got (mv 1 s) (deeper (p_cell up dp) (mv 1 s)) (length (cell_src (fst p) (snd p))) (fun x => same_cell (l_val x) (snd p))).
  { apply got_deeper. assert (Ex : exists r, cells_src ps ++ x7c :: b_nl :: k = x7c :: r) by (destruct ps; cbn; eauto).
    destruct Ex as [r Ex]. apply (cell_run _ _ _ r); auto.
    - rewrite <- Ex. exact (sees_deeper _ _ H1).
    - apply ctxt_deeper. exact (ctxt_bar s _ H0). }
  destruct (deeper (p_cell up dp) (mv 1 s)) as [s2 x| | |]; cbn in G; try contradiction; [|exact I]. destruct G as [-> G]. cbn [bind].
  pose proof (sees_mv _ _ _ H1) as H2.
  pose proof (cells_run (S (remaining_len (mv (length (cell_src (fst p) (snd p))) (mv 1 s)))) _ ps k H2 Fs ltac:(lia)) as G2.
  destruct (sep_loop _ (pchar x7c) (deeper (p_cell up dp)) (mv (length (cell_src (fst p) (snd p))) (mv 1 s))) as [s3 xs| | |]; cbn in G2; try contradiction; [|exact I].
  destruct G2 as [-> G2]. cbn [bind]. pose proof (sees_mv _ _ _ H2) as H3. rewrite (pchar_run x7c _ _ H3). cbn [bind].
  pose proof (sees_mv _ [x7c] _ H3) as H4. change (length [x7c]) with 1 in H4. rewrite (eol_run_nl _ _ H4). cbn [bind].
  split; [|constructor; auto]. rewrite !mv_mv. f_equal. cbn [length app]. rewrite !app_length. change (length (bs "|")) with 1. lia.
Qed.
(** What begins, after blanks, with no bar is no row. *)
Definition no_bar (l : str) : Prop := forall a q, blanks a -> l <> a ++ x7c :: q.
Lemma no_row s l : sees s l -> no_bar l -> fails (preceded space0 (p_row up dp) s).
Proof.
  intros H N. destruct (blanks_split l) as (a & q & -> & Ba & Hq). unfold preceded. rewrite (space0_run s a q H Ba Hq). cbn [bind].
  unfold p_row, delimited, preceded, terminated. rewrite pchar_err; [exact I|].
  intros r E. rewrite (proj2 (sees_mv _ _ _ H)) in E. subst q. exact (N a r Ba eq_refl).
Qed.
Definition rows_src (ind : str) (rows : list (list (nat * cell))) : str := flat_map (fun ps => ind ++ row_src ps ++ [b_nl]) rows.
Lemma row_head ps : ps <> [] -> exists r, row_src ps = x7c :: r.
Proof. destruct ps as [|p ps]; [congruence|]. intros _. unfold row_src. cbn. eauto. Qed.
Lemma later_rows ind rows : blanks ind -> Forall (fun ps => ps <> [] /\ Forall cell_ok ps) rows -> forall s k, sees s (rows_src ind rows ++ k) -> no_bar k ->
  got s (many0 (preceded space0 (p_row up dp)) s) (length (rows_src ind rows)) (fun l => Forall2 same_row l rows).
Proof.
  intros B F. induction F as [|ps rows [Fn Fp] F IH]; intros s k H N.
  - cbn [rows_src flat_map app length] in *. pose proof (got_many0_nil s _ (no_row s k H N)) as G. unfold got in *.
    destruct (many0 (preceded space0 (p_row up dp)) s); auto. destruct G as [-> ->]. split; auto.
  - change (rows_src ind (ps :: rows)) with ((ind ++ row_src ps ++ [b_nl]) ++ rows_src ind rows) in *. rewrite <- app_assoc in H.
    set (a := ind ++ row_src ps ++ [b_nl]) in *.
    assert (G : got s (preceded space0 (p_row up dp) s) (length a) (fun xs => same_row xs ps)).
    { unfold preceded. subst a. rewrite <- !app_assoc in H.
      rewrite (space0_run s ind _ H B) by (destruct (row_head ps Fn) as [r ->]; intros c t E; injection E as <- _; reflexivity).
      cbn [bind]. rewrite app_length. apply got_shift. eapply got_n; [exact (row_run _ ps _ (sees_mv _ _ _ H) Fn Fp)|].
      rewrite app_length. change (length [b_nl]) with 1. lia. }
    pose proof (IH _ _ (sees_mv _ _ _ H) N) as G2. rewrite app_length.
    assert (La : 0 < length a) by (subst a; rewrite !app_length; change (length [b_nl]) with 1; lia).
    pose proof (got_many0_cons s _ _ (length a) (length (rows_src ind rows)) (fun xs => same_row xs ps) (fun l => Forall2 same_row l rows) H
      ltac:(rewrite app_length; lia) La G G2) as G3.
    unfold got in *. destruct (many0 (preceded space0 (p_row up dp)) s); auto. destruct G3 as [-> (x & l' & -> & E1 & E2)]. split; auto.
Qed.

(** * The table *)

Definition cell_or (t : table) (r c : nat) : cell := match cell_at t r c with Some x => l_val x | None => CContent [] end.
Definition grid_row (t : table) (r : nat) : list (nat * cell) :=
  map (fun c => (col_size lossy t c, cell_or t r c)) (seq 0 (t_col_cnt t)).
Definition grid (t : table) : list (list (nat * cell)) := map (grid_row t) (seq 0 (t_row_cnt t)).
Lemma cell_at_spec t r c x : SpecElem.is_map t -> (cell_at t r c = Some x <-> SpecElem.at_ t r c x).
Proof.
  unfold SpecElem.is_map, SpecElem.at_, cell_at. intro M. induction (t_cells t) as [|[[r' c'] v] l IH]; [split; [discriminate|intros []]|].
  cbn [find fst cp_row cp_col map] in *. inversion M as [|? ? M1 M2]; subst. destruct ((r' =? r) && (c' =? c)) eqn:E.
  - apply andb_true_iff in E as [E1 E2]. apply Nat.eqb_eq in E1, E2. subst. split.
    + intro K. injection K as <-. now left.
    + intros [K|K]; [injection K as ->; reflexivity|]. exfalso. apply M1. exact (in_map fst _ _ K).
  - rewrite (IH M2). split; [now right|]. intros [K|K]; auto. injection K as -> -> _. rewrite !Nat.eqb_refl in E. discriminate.
Qed.
Lemma row_line_eq t r : row_line lossy t r = row_src (grid_row t r).
Proof.
  rewrite <- row_src_eq. unfold row_line, grid_row. f_equal. induction (seq 0 (t_col_cnt t)) as [|c l IH]; [reflexivity|].
  cbn [flat_map map fst snd]. rewrite IH. f_equal. f_equal. unfold cell_or. destruct (cell_at t r c); reflexivity.
Qed.
Lemma row_lines_eq t : row_lines lossy t = map row_src (grid t).
Proof. unfold row_lines, grid. rewrite map_map. apply map_ext. apply row_line_eq. Qed.
Lemma size_le t r c x : SpecElem.at_ t r c x -> cell_size (l_val x) <= col_size lossy t c.
Proof.
  intro H. unfold col_size. assert (K : In (cell_size (l_val x)) (map (fun kv => cell_size (l_val (snd kv)))
    (filter (fun kv => cp_col (fst kv) =? c) (t_cells t)))).
  { apply in_map_iff. exists (CellPos r c, x). split; auto. apply filter_In. split; auto. apply Nat.eqb_refl. }
  revert K. generalize (map (fun kv => cell_size (l_val (snd kv))) (filter (fun kv => cp_col (fst kv) =? c) (t_cells t))).
  intros l K. pose proof (proj1 (list_max_le l (list_max l)) (Nat.le_refl _)) as F. rewrite Forall_forall in F. exact (F _ K).
Qed.
Local Notation table_fine := (table_fine up dp lossy).
Lemma cell_or_at t r c x : table_fine t -> SpecElem.at_ t r c x -> cell_or t r c = l_val x.
Proof. intros (M & _) H. unfold cell_or. now rewrite (proj2 (cell_at_spec t r c x M) H). Qed.
Lemma grid_row_ok t r : table_fine t -> r < t_row_cnt t -> grid_row t r <> [] /\ Forall cell_ok (grid_row t r).
Proof.
  intros T L. pose proof T as (M & C & Rc & Hr & Hc & Fc & _). split.
  - unfold grid_row. destruct (t_col_cnt t); [lia|]. discriminate.
  - apply Forall_forall. intros p Hp. apply in_map_iff in Hp as (c & <- & Hs). apply in_seq in Hs. unfold cell_ok. cbn [fst snd].
    destruct (Rc r c L ltac:(lia)) as [x Hx]. rewrite (cell_or_at t r c x T Hx). split; [now apply (Fc r c)|now apply (size_le t r c)].
Qed.
Lemma grid_ok t : table_fine t -> Forall (fun ps => ps <> [] /\ Forall cell_ok ps) (grid t).
Proof.
  intro T. apply Forall_forall. intros ps Hp. apply in_map_iff in Hp as (r & <- & Hs). apply in_seq in Hs. apply grid_row_ok; auto. lia.
Qed.
Lemma Forall2_nth {A B} (P : A -> B -> Prop) l m : Forall2 P l m -> forall i x, nth_error l i = Some x -> exists y, nth_error m i = Some y /\ P x y.
Proof.
  induction 1 as [|a b l m Hp F IH]; intros i x E; destruct i; try discriminate; cbn in *; [injection E as <-; eauto|eauto].
Qed.
Lemma Forall2_len {A B} (P : A -> B -> Prop) l m : Forall2 P l m -> length l = length m.
Proof. induction 1; cbn; congruence. Qed.
Lemma Forall2_flip' {A B} (P : A -> B -> Prop) l m : Forall2 P l m -> Forall2 (fun y x => P x y) m l.
Proof. induction 1; constructor; auto. Qed.
Lemma nth_map_seq {A} (f : nat -> A) n i y : nth_error (map f (seq 0 n)) i = Some y <-> i < n /\ y = f i.
Proof.
  rewrite nth_error_map. destruct (Nat.lt_ge_cases i n) as [L|L].
  - rewrite (nth_error_nth' _ 0) by (rewrite seq_length; lia). rewrite seq_nth by lia. cbn. split; [intro E; injection E as <-; auto|intros [_ ->]; reflexivity].
  - rewrite (proj2 (nth_error_None _ _)) by (rewrite seq_length; lia). cbn. split; [discriminate|lia].
Qed.
Definition with_centered (t : table) (b : bool) : table := Table (t_cells t) (t_row_cnt t) (t_col_cnt t) b.
Definition same_table (x t : table) : Prop := forall cu, n_table cu nowhere x = n_table cu nowhere t.
Lemma new_cells xs b : t_cells (table_new (enum_rows xs) b) = enum_from 0 xs.
Proof. exact (cells_collect_id _ (enum_from_nodup 0 xs)). Qed.
Lemma grid_cell t xs r c : table_fine t -> Forall2 same_row xs (grid t) -> r < t_row_cnt t -> c < t_col_cnt t ->
  exists x y, In (CellPos r c, x) (enum_from 0 xs) /\ SpecElem.at_ t r c y /\ same_cell (l_val x) (l_val y).
Proof.
  intros T F Lr Lc. pose proof T as (_ & _ & Rc & _). destruct (Rc r c Lr Lc) as [y Hy].
  destruct (Forall2_nth _ _ _ (Forall2_flip' _ _ _ F) r (grid_row t r) (proj2 (nth_map_seq _ _ _ _) (conj Lr eq_refl))) as (row & E1 & S1).
  destruct (Forall2_nth _ _ _ (Forall2_flip' _ _ _ S1) c _ (proj2 (nth_map_seq _ _ _ _) (conj Lc eq_refl))) as (x & E2 & S2).
  exists x, y. split; [|split; [exact Hy|]].
  - apply enum_from_in. split; [lia|]. rewrite Nat.sub_0_r. eauto.
  - cbn [snd] in S2. rewrite (cell_or_at t r c y T Hy) in S2. exact S2.
Qed.
Lemma new_pos t xs r c x : Forall2 same_row xs (grid t) -> In (CellPos r c, x) (enum_from 0 xs) -> r < t_row_cnt t /\ c < t_col_cnt t.
Proof.
  intros F H. apply enum_from_in in H as (_ & row & E1 & E2). rewrite Nat.sub_0_r in E1.
  destruct (Forall2_nth _ _ _ F r row E1) as (ps & K1 & S1). apply nth_map_seq in K1 as [L ->]. split; auto.
  destruct (Forall2_nth _ _ _ S1 c x E2) as (p & K2 & _). now apply nth_map_seq in K2 as [L2 _].
Qed.
Lemma in_unique {K V} (l : list (K * V)) k v w : NoDup (map fst l) -> In (k, v) l -> In (k, w) l -> v = w.
Proof.
  induction l as [|[a b] l IH]; cbn; [contradiction|]. intros N H1 H2. inversion N as [|? ? N1 N2]; subst.
  destruct H1 as [H1|H1], H2 as [H2|H2]; try congruence; auto.
  - injection H1 as -> ->. exfalso. apply N1. exact (in_map fst _ _ H2).
  - injection H2 as -> ->. exfalso. apply N1. exact (in_map fst _ _ H1).
Qed.
Lemma new_same t xs b : table_fine t -> Forall2 same_row xs (grid t) -> same_table (table_new (enum_rows xs) b) (with_centered t b).
Proof.
  intros T F cu. pose proof T as (M & C & Rc & Hr & Hc & Fc & _).
  assert (Lx : length xs = t_row_cnt t).
  { rewrite (Forall2_len _ _ _ F). unfold grid. now rewrite map_length, seq_length. }
  assert (Lr : Forall (fun row => length row = t_col_cnt t) xs).
  { apply Forall_forall. intros row Hrow. apply In_nth_error in Hrow as [i E]. destruct (Forall2_nth _ _ _ F i row E) as (ps & K & S).
    apply nth_map_seq in K as [_ ->]. rewrite (Forall2_len _ _ _ S). unfold grid_row. now rewrite map_length, seq_length. }
  unfold n_table. rewrite new_cells. f_equal.
  - cbn [with_centered t_cells]. apply ProofEq.by_key_eq; [exact ProofEq.pos_leb_total|exact ProofEq.pos_leb_anti|exact ProofEq.pos_leb_trans| |].
    + unfold keyed. rewrite map_map. cbn [fst]. exact (enum_from_nodup 0 xs).
    + apply NoDup_Permutation.
      * apply (NoDup_map_inv fst). rewrite map_map. cbn [fst]. exact (enum_from_nodup 0 xs).
      * apply (NoDup_map_inv fst). rewrite map_map. exact M.
      * intros [[r c] v]. rewrite !in_map_iff. split.
        -- intros ([p x] & E & H). cbn [fst snd] in E. injection E as -> <-. destruct (new_pos t xs r c x F H) as [L1 L2].
           destruct (grid_cell t xs r c T F L1 L2) as (x' & y & H1 & H2 & S).
           rewrite <- (in_unique _ _ _ _ (enum_from_nodup 0 xs) H H1) in S. exists (CellPos r c, y). split; [|exact H2].
           cbn [fst snd]. unfold n_loc. f_equal. now rewrite (S cu).
        -- intros ([p y] & E & H). cbn [fst snd] in E. injection E as -> <-. destruct (C r c (ex_intro _ y H)) as [L1 L2].
           destruct (grid_cell t xs r c T F L1 L2) as (x & y' & H1 & H2 & S).
           rewrite <- (in_unique _ _ _ _ M H H2) in S. exists (CellPos r c, x). split; [|exact H1].
           cbn [fst snd]. unfold n_loc. f_equal. now rewrite (S cu).
  - change (t_row_cnt (table_new (enum_rows xs) b)) with
      (fold_left (fun a kv => Nat.max a (cp_row (fst kv) + 1)) (t_cells (table_new (enum_rows xs) b)) 0).
    rewrite fold_max, new_cells, enum_from_rows; [cbn; lia| |].
    + intros ->. cbn in Lx. lia.
    + eapply Forall_impl; [|exact Lr]. cbn beta. intros row E ->. cbn in E. lia.
  - change (t_col_cnt (table_new (enum_rows xs) b)) with
      (fold_left (fun a kv => Nat.max a (cp_col (fst kv) + 1)) (t_cells (table_new (enum_rows xs) b)) 0).
    rewrite fold_max, new_cells, enum_from_cols. cbn [with_centered t_col_cnt]. rewrite Nat.max_0_l.
    assert (Nx : xs <> []) by (intros ->; cbn in Lx; lia). clear - Lr Nx. destruct xs as [|row xs]; [congruence|].
    inversion Lr as [|? ? E Lr']; subst. rewrite <- E. clear Nx. cbn [map].
    change (list_max (length row :: map (@length _) xs)) with (Nat.max (length row) (list_max (map (@length _) xs))).
    assert (list_max (map (@length _) xs) <= length row); [|lia]. apply list_max_le. apply Forall_map. eapply Forall_impl; [|exact Lr']. cbn. lia.
Qed.
Lemma new_not_divider t xs b : table_fine t -> Forall2 same_row xs (grid t) ->
  negb (forallb (is_divider_row (table_new (enum_rows xs) b)) (rows (table_new (enum_rows xs) b))) = true.
Proof.
  intros T F. pose proof T as (M & C & Rc & Hr & Hc & _ & Na & _). apply negb_true_iff. apply not_true_iff_false. intro K.
  destruct (Na 0 Hc) as (r & y & Hy & Ny). destruct (C r 0 (ex_intro _ y Hy)) as [L1 L2].
  destruct (grid_cell t xs r 0 T F L1 L2) as (x & y' & H1 & H2 & S). rewrite <- (in_unique _ _ _ _ M Hy H2) in S.
  rewrite forallb_forall in K. specialize (K r).
  assert (In r (rows (table_new (enum_rows xs) b))) as Hin.
  { apply in_seq. split; [lia|]. pose proof (f_equal t_row_cnt (new_same t xs b T F (fun u => u))) as E. cbn [n_table t_row_cnt with_centered] in E.
    cbn [plus]. rewrite E. exact L1. }
  specialize (K Hin). unfold is_divider_row, get_cell in K. rewrite new_cells in K.
  rewrite (proj2 (cells_get_in _ _ _ (enum_from_nodup 0 xs)) H1) in K.
  specialize (S (fun u => u)). destruct (l_val x) as [?|?|a]; try discriminate. destruct (l_val y) as [?|?|a']; try discriminate. exact (Ny a' eq_refl).
Qed.
Lemma table_run t ind s k : sees s (rows_src ind (grid t) ++ k) -> blanks ind -> no_bar k -> table_fine t ->
  got s (p_table up dp s) (length (rows_src ind (grid t))) (fun x => same_table (l_val x) (with_centered t (negb (is_nil ind)))).
Proof.
  intros H B N T. unfold p_table. apply (got_located s _ _ (fun x => same_table x (with_centered t (negb (is_nil ind))))).
  pose proof (grid_ok t T) as Gk. pose proof T as (_ & _ & _ & Hr & _).
  destruct (grid t) as [|ps rows'] eqn:Eg; [exfalso; apply (f_equal (@length _)) in Eg; unfold grid in Eg; rewrite map_length, seq_length in Eg; cbn in Eg; lia|].
  inversion Gk as [|? ? [Fn Fp] Fr]; subst.
  change (rows_src ind (ps :: rows')) with ((ind ++ row_src ps ++ [b_nl]) ++ rows_src ind rows') in *.
  set (a := ind ++ row_src ps ++ [b_nl]) in *. rewrite <- app_assoc in H.
  assert (H0 : sees s (ind ++ row_src ps ++ b_nl :: rows_src ind rows' ++ k)) by (subst a; rewrite <- !app_assoc in H; exact H).
  unfold verify, pair. rewrite (space0_run s ind _ H0 B) by (destruct (row_head ps Fn) as [r ->]; intros c q E; injection E as <- _; reflexivity).
  cbn [bind]. pose proof (row_run _ ps _ (sees_mv _ _ _ H0) Fn Fp) as G.
  destruct (p_row up dp (mv (length ind) s)) as [s1 x| | |]; cbn in G; try contradiction; [|exact I]. destruct G as [-> G]. cbn [bind fst snd].
  pose proof (sees_mv _ _ _ H) as H1. rewrite mv_mv.
  assert (La : length ind + S (length (row_src ps)) = length a) by (subst a; rewrite !app_length; change (length [b_nl]) with 1; lia).
  rewrite La. pose proof (later_rows ind rows' B Fr _ _ H1 N) as G2.
  destruct (many0 (preceded space0 (p_row up dp)) (mv (length a) s)) as [s2 xs| | |]; cbn in G2; try contradiction; [|exact I]. destruct G2 as [-> G2]. cbn [bind].
  assert (F : Forall2 same_row (x :: xs) (grid t)) by (rewrite Eg; constructor; auto).
  assert (Ei : non_empty (tk (length ind) s) = negb (is_nil ind)).
  { unfold non_empty, sp_is_empty. rewrite (sees_len _ _ (sees_tk _ _ _ H0)). destruct ind; reflexivity. }
  rewrite Ei. rewrite (new_not_divider t (x :: xs) _ T F). split; [rewrite mv_mv, app_length; reflexivity|].
  exact (new_same t (x :: xs) _ T F).
Qed.

(** * The lines of a table *)

Lemma rows_src_ind ind rs : rows_src ind rs = nl_lines (map (app ind) (map row_src rs)).
Proof.
  unfold rows_src, nl_lines. induction rs as [|r rs IH]; [reflexivity|]. cbn [flat_map map]. rewrite IH, <- !app_assoc. reflexivity.
Qed.
Lemma repeat_no_nl c n : c <> b_nl -> no_nl (repeat c n).
Proof. intros N H. apply repeat_spec in H. congruence. Qed.
Lemma cell_no_nl p : cell_ok p -> no_nl (cell_src (fst p) (snd p)).
Proof.
  destruct p as [w c]. intros [F _]. cbn [fst snd] in *. destruct c as [x|[]|[]]; cbn [SpecRound.cell_src]; rewrite ?no_nl_app;
    repeat split; try (apply repeat_no_nl; discriminate); try nonl. apply F.
Qed.
Lemma row_no_nl ps : Forall cell_ok ps -> no_nl (row_src ps).
Proof.
  intro F. unfold row_src. apply no_nl_app. split; [|nonl]. induction F as [|p ps Fp F IH]; [intros []|].
  change (cells_src (p :: ps)) with ([x7c] ++ cell_src (fst p) (snd p) ++ cells_src ps). rewrite !no_nl_app. split; [nonl|]. split; [now apply cell_no_nl|exact IH].
Qed.
Lemma row_lines_whole t : table_fine t -> Forall (fun l => no_nl l /\ no_cr_end l) (row_lines lossy t).
Proof.
  intro T. rewrite row_lines_eq. apply Forall_map. eapply Forall_impl; [|exact (grid_ok t T)]. intros ps [_ F]. split; [now apply row_no_nl|].
  intros x E. unfold row_src in E. change (bs "|") with [x7c] in E. apply app_inj_tail in E as [_ E]. discriminate.
Qed.
(** The first line begins with a bar. *)
Lemma row_lines_head t : table_fine t -> exists r ls, row_lines lossy t = (x7c :: r) :: ls /\ absent (bs "::") (x7c :: r).
Proof.
  intro T. pose proof (grid_ok t T) as G. pose proof T as (_ & _ & _ & Hr & _ & _ & _ & A). rewrite row_lines_eq in *.
  destruct (grid t) as [|ps rs] eqn:E; [exfalso; apply (f_equal (@length _)) in E; unfold grid in E; rewrite map_length, seq_length in E; cbn in E; lia|].
  inversion G as [|? ? [Fn _] _]; subst. destruct (row_head ps Fn) as [r Er]. cbn [map firstn] in *. rewrite Er in *. inversion A; subst. eauto.
Qed.
Lemma plain_lines t : t_centered t = false -> table_lines lossy t = row_lines lossy t.
Proof. intro E. unfold table_lines. rewrite E. rewrite <- (map_id (row_lines lossy t)) at 2. apply map_ext. reflexivity. Qed.
Lemma centered_same x t b : same_table x (with_centered t b) -> same_table (with_centered x (t_centered t)) t.
Proof.
  intros S cu. specialize (S cu). unfold n_table in *. cbn [with_centered t_cells t_row_cnt t_col_cnt t_centered] in *. injection S as E1 E2 E3 _.
  now rewrite E1, E2, E3.
Qed.
End Table.
