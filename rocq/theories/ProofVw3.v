(** The layout of printed tables; when formatting a page returns. *)
From Verif Require Import Base ModelSpan ModelComb ModelAst ModelLink ModelBlock ModelElem ModelTable ModelVimwiki
  SpecDoc SpecTree SpecElem SpecVw
  ProofBase ProofTree ProofTable ProofElem ProofElem2 ProofEnv ProofClaims2 ProofWhite ProofVw ProofVw2.
Local Open Scope nat_scope.

Lemma spaces_repeat n : spaces (repeat b_sp n).
Proof. induction n; constructor; auto. Qed.
Lemma spaces_app a b : spaces a -> spaces b -> spaces (a ++ b).
Proof. intros. apply Forall_app. auto. Qed.

Section Out.
Variable cfg : vw_config.
Variable roman : bool -> Z -> str.
Variable lossy : str -> str.

Lemma pad_spec s : surrounded s (pad_cell cfg s).
Proof.
  unfold surrounded, pad_cell. destruct (vc_tbl_nopad cfg).
  - exists [], []. rewrite app_nil_r. repeat split; constructor.
  - destruct s as [|b s]; [exists [], (bs " "); repeat split; repeat constructor|].
    eexists _, _. split; [reflexivity|]. split; [destruct (length (str_trim_start _) <? _) | destruct (length (str_trim_end _) <? _)];
      repeat constructor.
Qed.

Definition mark_str (a : col_align) (n : nat) : str :=
  match a with
  | AlNone => repeat x2d n
  | AlLeft => bs ":" ++ repeat x2d (n - 1)
  | AlRight => repeat x2d (n - 1) ++ bs ":"
  | AlCenter => bs ":" ++ repeat x2d (n - 2) ++ bs ":"
  end.
Definition cell_str (t : table) (m : list (cellpos * str)) (r c : nat) : str :=
  let size := column_size t m c in
  match fixed_get (CellPos r c) m with
  | Some s => s ++ repeat b_sp (size - length s)
  | None => match get_cell t r c with
            | Some (Loc (CAlign a) _) => mark_str a size
            | _ => repeat b_sp size
            end
  end.

Lemma mark_run a n ct k : needs a <= n ->
  align_vw a n (Vst ct k false) = VOk (Vst (ct ++ mark_str a n) k false).
Proof.
  intro L. destruct a; cbn [align_vw needs mark_str] in *; auto.
  - replace (n <? 1) with false by (symmetry; now apply Nat.ltb_ge). unfold vseq, wr. cbn [v_skip v_content v_indent].
    now rewrite <- app_assoc.
  - replace (n <? 2) with false by (symmetry; now apply Nat.ltb_ge). unfold vseq, wr. cbn [v_skip v_content v_indent].
    now rewrite <- !app_assoc.
  - replace (n <? 1) with false by (symmetry; now apply Nat.ltb_ge). unfold vseq, wr. cbn [v_skip v_content v_indent].
    now rewrite <- app_assoc.
Qed.
Lemma mark_len a n : needs a <= n -> length (mark_str a n) = n.
Proof. destruct a; cbn [needs mark_str]; rewrite ?app_length, ?repeat_length; cbn; intros; rewrite ?app_length, ?repeat_length; cbn; lia. Qed.
Lemma mark_marker a n : marker a (mark_str a n).
Proof. destruct a; eexists; reflexivity. Qed.

Lemma wr_run s ct n : wr s (Vst ct n false) = VOk (Vst (ct ++ s) n false).
Proof. reflexivity. Qed.

Lemma cell_run t m r c ct n : ~ cell_misfit t m r c ->
  cell_vw t m r c (Vst ct n false) = VOk (Vst (ct ++ cell_str t m r c ++ bs "|") n false).
Proof.
  intro N. unfold cell_vw, cell_str. unfold vseq at 1.
  destruct (fixed_get (CellPos r c) m) as [s|].
  - unfold vseq. rewrite wr_run. destruct (length s <? column_size t m c) eqn:E; cbn [wr_if].
    + rewrite !wr_run. now rewrite <- !app_assoc.
    + apply Nat.ltb_ge in E. replace (column_size t m c - length s) with 0 by lia. cbn [repeat].
      unfold vskip. rewrite wr_run, app_nil_r. now rewrite <- !app_assoc.
  - destruct (get_cell t r c) as [[[y|[]|a] g]|] eqn:E;
      try (rewrite !wr_run; now rewrite <- !app_assoc).
    rewrite mark_run; [rewrite wr_run; now rewrite <- !app_assoc|].
    destruct (Nat.le_gt_cases (needs a) (column_size t m c)); auto. destruct N. exists (Loc (CAlign a) g), a. auto.
Qed.

Lemma each_run {A} (f : A -> vm) (g : A -> str) l n :
  (forall x ct, In x l -> f x (Vst ct n false) = VOk (Vst (ct ++ g x) n false)) ->
  forall ct, veach f l (Vst ct n false) = VOk (Vst (ct ++ flat_map g l) n false).
Proof.
  induction l as [|x l IH]; intros H ct; [cbn; rewrite app_nil_r; reflexivity|].
  rewrite veach_cons. unfold vseq. rewrite H by now left. rewrite IH by (intros; apply H; now right).
  cbn. now rewrite <- app_assoc.
Qed.

Definition row_str (t : table) (m : list (cellpos * str)) (r : nat) : list str :=
  map (cell_str t m r) (seq 0 (t_col_cnt t)).

Lemma table_run t m : (forall ct n, fixed_cells cfg lossy (Vst ct n false) (cells_pos t) = Some m) ->
  (forall r c, r < t_row_cnt t -> c < t_col_cnt t -> ~ cell_misfit t m r c) ->
  run_vw (table_vw cfg lossy t) = Some (table_text (t_centered t) (map (row_str t m) (seq 0 (t_row_cnt t)))).
Proof.
  intros E N. unfold run_vw, table_vw. rewrite E.
  rewrite (each_run _ (fun r => (if t_centered t then bs "    " else []) ++ bs "|" ++ flat_map (fun c => c ++ bs "|") (row_str t m r) ++ [x0a])).
  - unfold table_text. cbn [v_content app]. rewrite flat_map_map. reflexivity.
  - intros r ct I. apply in_seq in I. unfold vseq at 1.
    replace (write_indent (vc_indent cfg) (Vst ct 0 false)) with (VOk (Vst ct 0 false)).
    2:{ unfold write_indent. cbn. destruct ct; [reflexivity|]. destruct (ends_with_nl _); reflexivity. }
    unfold vseq at 1.
    replace (wr_if (t_centered t) (bs "    ") (Vst ct 0 false)) with (VOk (Vst (ct ++ if t_centered t then bs "    " else []) 0 false)).
    2:{ destruct (t_centered t); cbn [wr_if]; [reflexivity | now rewrite app_nil_r]. }
    unfold vseq at 1. rewrite wr_run. unfold vseq at 1.
    rewrite (each_run _ (fun c => cell_str t m r c ++ bs "|")).
    2:{ intros c ct' Ic. apply in_seq in Ic. apply cell_run. apply N; lia. }
    unfold wln. rewrite wr_run. unfold row_str. rewrite flat_map_map. now rewrite <- !app_assoc.
Qed.

Lemma list_max_in l n : In n l -> n <= list_max l.
Proof.
  induction l as [|m l IH]; [intros []|]. change (list_max (m :: l)) with (Nat.max m (list_max l)).
  intros [->|H]; [lia|]. specialize (IH H). lia.
Qed.

Lemma column_size_text t m c : forall r s, In (CellPos r c, s) m -> length s <= column_size t m c.
Proof.
  intros r s I. unfold column_size.
  match goal with |- _ <= match ?x with _ => _ end => assert (J : In (CellPos r c, s) x); [|destruct x as [|e es]] end;
    [apply filter_In; split; auto; cbn; apply Nat.eqb_refl | destruct J |].
  assert (K : length s <= list_max (map (fun e => length (snd e)) (e :: es))).
  { apply list_max_in. apply in_map_iff. exists (CellPos r c, s). auto. }
  exact (Nat.le_trans _ _ _ K (Nat.le_max_l _ _)).
Qed.

Lemma walked_in t r c x : is_map t -> at_ t r c x -> walked t r c -> In x (column t c).
Proof.
  intros M A K. apply (nth_error_In _ r). apply column_nth. split; [now apply get_cell_at|].
  intros k Hk. destruct (K k Hk) as [y Y]. exists y. now apply get_cell_at.
Qed.

Lemma text_fits cells : (exists a, cells = CAlign a) \/ exists s, text_of cfg lossy cells s.
Proof.
  destruct cells as [z|[]|a]; [right|right|right|left]; [|eexists; reflexivity|eexists; reflexivity|eauto].
  destruct (container_runs cfg lossy z) as (u & Eu & _). exists (pad_cell cfg u). cbn. eauto.
Qed.

Lemma column_size_mark t m r c x a s r' : is_map t -> at_ t r c x -> l_val x = CAlign a -> walked t r c ->
  In (CellPos r' c, s) m -> min_align (CAlign a) <= column_size t m c.
Proof.
  intros M A V K I. unfold column_size.
  match goal with |- _ <= match ?x with _ => _ end => assert (J : In (CellPos r' c, s) x); [|destruct x] end;
    [apply filter_In; split; auto; cbn; apply Nat.eqb_refl | destruct J |].
  assert (Q : min_align (CAlign a) <= list_max (map (fun x => min_align (l_val x)) (column t c))).
  { apply list_max_in. apply in_map_iff. exists x. rewrite V. split; auto. eapply walked_in; eauto. }
  exact (Nat.le_trans _ _ _ Q (Nat.le_max_r _ _)).
Qed.

Lemma mark_dash a n : min_align (CAlign a) <= n -> In x2d (mark_str a n).
Proof.
  destruct a; cbn; intro L.
  - destruct n; [lia|now left].
  - right. replace (n - 1) with (S (n - 2)) by lia. now left.
  - right. replace (n - 2) with (S (n - 3)) by lia. now left.
  - replace (n - 1) with (S (n - 2)) by lia. now left.
Qed.

(** The layout of a printed table. *)
Theorem table_layout t o : is_map t -> counts_ok t ->
  block_to_vimwiki cfg roman lossy (BTable t) = Some o ->
  exists g, o = table_text (t_centered t) g /\
    length g = t_row_cnt t /\ Forall (fun row => length row = t_col_cnt t) g /\
    (forall c row1 row2 s1 s2, In row1 g -> In row2 g ->
       nth_error row1 c = Some s1 -> nth_error row2 c = Some s2 -> length s1 = length s2) /\
    forall r c row s, nth_error g r = Some row -> nth_error row c = Some s ->
      (forall x, at_ t r c x -> reached t r c ->
         match l_val x with
         | CContent y => exists u, run_vw (container_vw cfg lossy y) = Some u /\ surrounded u s
         | CSpan FromLeft => surrounded (bs ">") s
         | CSpan FromAbove => surrounded (bs "\/") s
         | CAlign a => marker a s
         end) /\
      (forall x a, at_ t r c x -> l_val x = CAlign a -> marker a s) /\
      (forall x a r' x', at_ t r c x -> l_val x = CAlign a -> walked t r c ->
         at_ t r' c x' -> reached t r' c -> (forall b, l_val x' <> CAlign b) -> In x2d s) /\
      (~ reached t r c -> (forall x a, at_ t r c x -> l_val x <> CAlign a) -> spaces s).
Proof.
  intros M W E. unfold block_to_vimwiki in E. cbn [block_vw] in E.
  destruct (fixed_spec cfg lossy t M W) as (m & Em & N & H).
  assert (NM : forall r c, r < t_row_cnt t -> c < t_col_cnt t -> ~ cell_misfit t m r c).
  { intros r c Hr Hc (x & a & A & B & C).
    assert (X : run_vw (table_vw cfg lossy t) = None).
    { apply (run_outcome _ _ (outcome_table cfg lossy t M W)). exists r, c, x, a, m. auto 10. }
    congruence. }
  rewrite (table_run t m Em NM) in E. injection E as <-.
  exists (map (row_str t m) (seq 0 (t_row_cnt t))).
  assert (Cell : forall r c row s, nth_error (map (row_str t m) (seq 0 (t_row_cnt t))) r = Some row ->
             nth_error row c = Some s -> s = cell_str t m r c /\ r < t_row_cnt t /\ c < t_col_cnt t).
  { intros r c row s Er Ec. rewrite nth_error_map in Er.
    destruct (nth_error (seq 0 (t_row_cnt t)) r) as [r'|] eqn:E1; [|discriminate]. cbn in Er. injection Er as <-.
    apply nth_error_nth with (d := 0) in E1 as E1'. assert (Lr : r < t_row_cnt t).
    { rewrite <- (seq_length (t_row_cnt t) 0). apply nth_error_Some. congruence. }
    rewrite seq_nth in E1' by auto. cbn in E1'. subst r'.
    unfold row_str in Ec. rewrite nth_error_map in Ec.
    destruct (nth_error (seq 0 (t_col_cnt t)) c) as [c'|] eqn:E2; [|discriminate]. cbn in Ec. injection Ec as <-.
    apply nth_error_nth with (d := 0) in E2 as E2'. assert (Lc : c < t_col_cnt t).
    { rewrite <- (seq_length (t_col_cnt t) 0). apply nth_error_Some. congruence. }
    rewrite seq_nth in E2' by auto. cbn in E2'. subst c'. auto. }
  assert (Len : forall r c, r < t_row_cnt t -> c < t_col_cnt t -> length (cell_str t m r c) = column_size t m c).
  { intros r c Hr Hc. unfold cell_str. destruct (fixed_get (CellPos r c) m) as [s|] eqn:F.
    - apply fixed_get_in in F; auto. pose proof (column_size_text t _ _ _ _ F). rewrite app_length, repeat_length. lia.
    - destruct (get_cell t r c) as [[[y|[]|a] g]|] eqn:G; try apply repeat_length.
      apply mark_len. destruct (Nat.le_gt_cases (needs a) (column_size t m c)); auto.
      destruct (NM r c Hr Hc). exists (Loc (CAlign a) g), a. auto. }
  split; [reflexivity|]. split; [now rewrite map_length, seq_length|].
  split. { apply Forall_forall. intros row I. apply in_map_iff in I as (r & <- & _). unfold row_str. now rewrite map_length, seq_length. }
  split.
  { intros c row1 row2 s1 s2 I1 I2 E1 E2.
    apply In_nth_error in I1 as (r1 & I1). apply In_nth_error in I2 as (r2 & I2).
    destruct (Cell _ _ _ _ I1 E1) as (-> & ? & ?). destruct (Cell _ _ _ _ I2 E2) as (-> & ? & ?).
    now rewrite !Len by auto. }
  intros r c row s Er Ec. destruct (Cell _ _ _ _ Er Ec) as (-> & Hr & Hc). clear Er Ec row.
  assert (Mk : forall x a, at_ t r c x -> l_val x = CAlign a -> marker a (cell_str t m r c)).
  { intros x a A V. unfold cell_str. destruct (fixed_get (CellPos r c) m) as [s|] eqn:F.
    - apply H in F as (y & Ay & _ & T). apply get_cell_at in A, Ay; auto. assert (x = y) by congruence. subst y.
      rewrite V in T. destruct T.
    - apply get_cell_at in A; auto. rewrite A. destruct x as [v g]. cbn in V. subst v. apply mark_marker. }
  assert (Sur : forall core s, surrounded core s -> surrounded core (s ++ repeat b_sp (column_size t m c - length s))).
  { intros core s (a & b & -> & Sa & Sb). exists a, (b ++ repeat b_sp (column_size t m c - length (a ++ core ++ b))).
    split; [now rewrite <- !app_assoc|]. split; auto. apply spaces_app; auto. apply spaces_repeat. }
  split; [|split; [auto|split]].
  - intros x A R. destruct (l_val x) as [y|[]|a] eqn:V; [| | |now apply (Mk x)].
    + destruct (container_runs cfg lossy y) as (u & Eu & _). exists u. split; auto.
      assert (F : fixed_get (CellPos r c) m = Some (pad_cell cfg u)).
      { apply H. exists x. rewrite V. cbn. eauto. }
      unfold cell_str. rewrite F. apply Sur, pad_spec.
    + assert (F : fixed_get (CellPos r c) m = Some (pad_cell cfg (bs ">"))).
      { apply H. exists x. rewrite V. cbn. eauto. }
      unfold cell_str. rewrite F. apply Sur, pad_spec.
    + assert (F : fixed_get (CellPos r c) m = Some (pad_cell cfg (bs "\/"))).
      { apply H. exists x. rewrite V. cbn. eauto. }
      unfold cell_str. rewrite F. apply Sur, pad_spec.
  - intros x a r' x' A V K A' R' T. destruct (text_fits (l_val x')) as [[b B]|[s Es]]; [now destruct (T b)|].
    assert (F : fixed_get (CellPos r' c) m = Some s) by (apply H; eauto). apply fixed_get_in in F; auto.
    pose proof (column_size_mark t m r c x a s r' M A V K F) as Q.
    unfold cell_str. destruct (fixed_get (CellPos r c) m) as [s'|] eqn:G.
    { apply H in G as (y & Ay & _ & Ty). apply get_cell_at in A, Ay; auto. assert (x = y) by congruence. subst y.
      rewrite V in Ty. destruct Ty. }
    apply get_cell_at in A; auto. rewrite A. destruct x as [v g]. cbn in V. subst v. now apply mark_dash.
  - intros R NA. unfold cell_str. destruct (fixed_get (CellPos r c) m) as [s|] eqn:F.
    + apply H in F as (x & _ & R' & _). tauto.
    + destruct (get_cell t r c) as [[[y|[]|a] g]|] eqn:G; try apply spaces_repeat.
      apply get_cell_at in G; auto. now destruct (NA _ a G).
Qed.

(** * When formatting returns *)

Lemma rect_reached t r c : rectangular t -> r < t_row_cnt t -> reached t r c.
Proof. intros R H r' c' Hc L. apply R; auto. lia. Qed.

(** Every marker with a colon has no gap above it. *)
Definition colons_walked (t : table) : Prop :=
  forall r c x a, at_ t r c x -> l_val x = CAlign a -> a <> AlNone -> walked t r c.
Lemma misfit_blind t : is_map t -> counts_ok t -> colons_walked t ->
  (misfit cfg lossy t <-> exists r c x a, at_ t r c x /\ l_val x = CAlign a /\ a <> AlNone /\ blind_column t c).
Proof.
  intros M W R. destruct (fixed_spec cfg lossy t M W) as (m & Em & N & H).
  assert (Empty : forall c, (forall r s, ~ In (CellPos r c, s) m) -> column_size t m c = 0).
  { intros c F. unfold column_size. destruct (filter _ m) as [|[[r k] s] es] eqn:Ef; auto.
    assert (I : In (CellPos r k, s) (filter (fun e => cp_col (fst e) =? c) m)) by (rewrite Ef; now left).
    apply filter_In in I as [I J]. cbn in J. apply Nat.eqb_eq in J. subst k. destruct (F _ _ I). }
  split.
  - intros (r & c & x & a & m' & Hr & Hc & G & V & E & L). rewrite Em in E. injection E as <-.
    apply get_cell_at in G; auto. assert (Na : a <> AlNone) by (intros ->; cbn in L; lia).
    exists r, c, x, a. split; auto. split; auto. split; auto.
    intros r' y A K. destruct (text_fits (l_val y)) as [?|[s Es]]; auto. exfalso.
    assert (F : fixed_get (CellPos r' c) m = Some s) by (apply H; eauto). apply fixed_get_in in F; auto.
    pose proof (column_size_mark t m r c x a s r' M G V (R r c x a G V Na) F) as Q.
    destruct a; cbn in Q, L; lia.
  - intros (r & c & x & a & A & V & Na & B). destruct (W r c) as [Hr Hc]; [now exists x|].
    exists r, c, x, a, m. split; auto. split; auto. split; [now apply get_cell_at|]. split; auto. split; auto.
    rewrite Empty.
    + destruct a; cbn; [congruence | lia | lia | lia].
    + intros r' s I. apply fixed_get_in in I; auto. apply H in I as (y & Ay & K & T).
      destruct (B _ _ Ay K) as [b Vb]. rewrite Vb in T. destruct T.
Qed.
(** A marker with a colon in a blind column is a misfit in every table. *)
Lemma blind_misfit t r c x a : is_map t -> counts_ok t ->
  at_ t r c x -> l_val x = CAlign a -> a <> AlNone -> blind_column t c -> misfit cfg lossy t.
Proof.
  intros M W A V Na B. destruct (fixed_spec cfg lossy t M W) as (m & Em & N & H).
  destruct (W r c) as [Hr Hc]; [now exists x|].
  exists r, c, x, a, m. split; auto. split; auto. split; [now apply get_cell_at|]. split; auto. split; auto.
  assert (column_size t m c = 0) as ->.
  { unfold column_size. destruct (filter _ m) as [|[[r' k] s] es] eqn:Ef; auto. exfalso.
    assert (I : In (CellPos r' k, s) (filter (fun e => cp_col (fst e) =? c) m)) by (rewrite Ef; now left).
    apply filter_In in I as [I J]. cbn in J. apply Nat.eqb_eq in J. subst k.
    apply fixed_get_in in I; auto. apply H in I as (y & Ay & K & T).
    destruct (B _ _ Ay K) as [b Vb]. rewrite Vb in T. destruct T. }
  destruct a; cbn; [congruence | lia | lia | lia].
Qed.

Lemma misfit_colon t : is_map t -> counts_ok t -> rectangular t -> (misfit cfg lossy t <-> colon_only t).
Proof.
  intros M W R. rewrite misfit_blind; auto.
  - split; intros (r & c & x & a & A & V & Na & B); exists r, c, x, a; (split; [auto|]); (split; [auto|]); (split; [auto|]).
    + intros r' y Ay. apply B with (r := r'); auto. apply rect_reached; auto. apply (W r' c). now exists y.
    + intros r' y Ay _. eauto.
  - intros r c x a A _ _ k Hk. destruct (W r c) as [Hr Hc]; [now exists x|]. apply R; auto. lia.
Qed.

(** * Tables of parsed pages *)

Lemma tables_nodes w : forall b t, In t (tables_in b) ->
  forall r, exists r', In (r', NBlock (BTable t)) (tree_nodes (RNode r (NBlock b) (block_kids w b))).
Proof.
  intros b. 
  apply (block_ind' (fun b => forall t, In t (tables_in b) -> forall r, exists r', In (r', NBlock (BTable t)) (tree_nodes (RNode r (NBlock b) (block_kids w b))))
    (fun i => forall t, In t (item_tables i) -> exists r', In (r', NBlock (BTable t)) (flat_map tree_nodes (item_kids w i)))); clear b.
  - intros b Hb t I r. destruct b; try (destruct I; fail).
    + destruct (Hb items eq_refl).
    + destruct I as [<-|[]]. exists r. cbn. now left.
  - intros items IH t I r. cbn [tables_in] in I. apply in_flat_map in I as (i & Ii & It).
    rewrite Forall_forall in IH. destruct (IH i Ii t It) as [r' Hr].
    exists r'. cbn [tree_nodes block_kids]. right. apply in_flat_map.
    exists (RNode (l_reg i) (NItem (l_val i)) (item_kids w (l_val i))). split.
    + apply in_map_iff. exists i. auto.
    + cbn [tree_nodes]. now right.
  - intros ty suf pos cs todo IH t I. cbn [item_tables] in I. apply in_flat_map in I as (c & Ic & It).
    rewrite Forall_forall in IH. destruct (IH c Ic t It (l_reg c)) as [r' Hr].
    exists r'. cbn [item_kids]. apply in_flat_map.
    exists (RNode (l_reg c) (NBlock (l_val c)) (block_kids w (l_val c))). split; auto.
    apply in_map_iff. exists c. auto.
Qed.

Lemma page_tables_nodes p t : In t (page_tables p) -> exists r, In (r, NBlock (BTable t)) (elements p).
Proof.
  intro I. unfold page_tables in I. apply in_flat_map in I as (b & Ib & It).
  destruct (tables_nodes true _ _ It (l_reg b)) as [r Hr]. exists r. unfold elements, page_trees.
  apply in_flat_map. eexists. split; [apply in_map_iff; exists b; split; [reflexivity|auto]|]. exact Hr.
Qed.

Theorem page_returns p : Forall (fun t => is_map t /\ counts_ok t) (page_tables p) ->
  page_to_vimwiki cfg roman lossy p = None <->
  exists t, In t (page_tables p) /\ block_to_vimwiki cfg roman lossy (BTable t) = None.
Proof.
  intro G. unfold page_to_vimwiki.
  rewrite (run_outcome _ _ (outcome_page cfg roman lossy p G)), Exists_exists.
  split; intros (t & I & E); exists t; (split; [auto|]); rewrite Forall_forall in G; destruct (G t I) as [M W];
    apply (run_outcome _ _ (outcome_table cfg lossy t M W)); auto.
Qed.

Theorem page_returns_rect p :
  Forall (fun t => is_map t /\ counts_ok t /\ rectangular t) (page_tables p) ->
  page_to_vimwiki cfg roman lossy p = None <-> exists t, In t (page_tables p) /\ colon_only t.
Proof.
  intro G. rewrite page_returns by (eapply Forall_impl; [|exact G]; cbn; tauto).
  rewrite Forall_forall in G.
  split; intros (t & I & E); exists t; (split; [auto|]); destruct (G t I) as (M & W & R).
  - apply (run_outcome _ _ (outcome_table cfg lossy t M W)) in E. now apply misfit_colon.
  - apply (run_outcome _ _ (outcome_table cfg lossy t M W)). now apply misfit_colon.
Qed.
Theorem page_returns_walked p :
  Forall (fun t => is_map t /\ counts_ok t /\ colons_walked t) (page_tables p) ->
  page_to_vimwiki cfg roman lossy p = None <->
  exists t r c x a, In t (page_tables p) /\ at_ t r c x /\ l_val x = CAlign a /\ a <> AlNone /\ blind_column t c.
Proof.
  intro G. rewrite page_returns by (eapply Forall_impl; [|exact G]; cbn; tauto).
  rewrite Forall_forall in G. split.
  - intros (t & I & E). destruct (G t I) as (M & W & R).
    apply (run_outcome _ _ (outcome_table cfg lossy t M W)) in E. apply misfit_blind in E; auto.
    destruct E as (r & c & x & a & E). exists t, r, c, x, a. tauto.
  - intros (t & r & c & x & a & I & E). destruct (G t I) as (M & W & R). exists t. split; auto.
    apply (run_outcome _ _ (outcome_table cfg lossy t M W)). apply misfit_blind; auto. exists r, c, x, a. tauto.
Qed.
Theorem page_panics_blind p t r c x a :
  Forall (fun t => is_map t /\ counts_ok t) (page_tables p) ->
  In t (page_tables p) -> at_ t r c x -> l_val x = CAlign a -> a <> AlNone -> blind_column t c ->
  page_to_vimwiki cfg roman lossy p = None.
Proof.
  intros G I A V Na B. apply page_returns; auto. rewrite Forall_forall in G. destruct (G t I) as (M & W).
  exists t. split; auto. apply (run_outcome _ _ (outcome_table cfg lossy t M W)). eapply blind_misfit; eauto.
Qed.
End Out.
