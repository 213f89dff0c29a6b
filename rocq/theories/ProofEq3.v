(** Strict equality implies equality; equal elements hash alike. *)
From Coq Require Import Permutation.
From Verif Require Import Base ModelSpan ModelAst ModelLink ModelTable ModelElem ModelVimwiki ModelEq SpecEq ProofBase ProofTable ProofTree ProofEq.

Lemma list_eqb_imp {A} (f g : A -> A -> bool) l :
  forall m, (forall x y, In x l -> In y m -> f x y = true -> g x y = true) -> list_eqb f l m = true -> list_eqb g l m = true.
Proof.
  induction l as [|x l IH]; intros [|y m] H; cbn; auto. rewrite !andb_true_iff. intros [E F]. split.
  - apply H; cbn; auto.
  - apply IH; auto. intros. apply H; cbn; auto.
Qed.
Lemma map_eqb_imp {V} (f g : V -> V -> bool) (m m' : list (cellpos * V)) :
  (forall x y, f x y = true -> g x y = true) -> map_eqb cellpos_eqb f m m' = true -> map_eqb cellpos_eqb g m m' = true.
Proof.
  intro H. unfold map_eqb. rewrite !andb_true_iff, !forallb_forall. intros [L A]. split; auto. intros x I. specialize (A x I).
  destruct (assoc _ _ _); auto.
Qed.
Lemma keys_perm {K V} (keqb : K -> K -> bool) (f : V -> V -> bool) m m' :
  (forall a b, keqb a b = true <-> a = b) -> keyed m -> keyed m' -> map_eqb keqb f m m' = true -> Permutation (map fst m) (map fst m').
Proof.
  intros E N N' H.
  assert (T : map_eqb keqb (fun _ _ => true) m m' = true).
  { unfold map_eqb in *. rewrite andb_true_iff, forallb_forall in *. destruct H as [L A]. split; auto. intros x I. specialize (A x I).
    now destruct (assoc _ _ _). }
  apply (map_eqb_iff keqb (fun _ _ => true) (fun _ : V => tt)) in T; auto; [|tauto].
  apply (Permutation_map fst) in T. now rewrite !map_map in T.
Qed.
Lemma counts_perm a b : counted a -> counted b -> Permutation (map fst (t_cells a)) (map fst (t_cells b)) ->
  t_row_cnt a = t_row_cnt b /\ t_col_cnt a = t_col_cnt b.
Proof.
  intros [Ra Ca] [Rb Cb] P.
  assert (S : forall k x, In (k, x) (t_cells a) -> exists y, In (k, y) (t_cells b)).
  { intros k x I. apply (in_map fst) in I. apply (Permutation_in _ P) in I. apply in_map_iff in I as ([k' y] & E & I). cbn in E. subst. eauto. }
  assert (S' : forall k x, In (k, x) (t_cells b) -> exists y, In (k, y) (t_cells a)).
  { intros k x I. apply (in_map fst) in I. apply (Permutation_in _ (Permutation_sym P)) in I. apply in_map_iff in I as ([k' y] & E & I). cbn in E. subst. eauto. }
  assert (E : forall n m, (forall i, n <= i <-> m <= i) -> n = m).
  { intros n m H. pose proof (proj1 (H n) (le_n _)). pose proof (proj2 (H m) (le_n _)). lia. }
  split; apply E; intro i; [rewrite (Ra i), (Rb i)|rewrite (Ca i), (Cb i)];
    (split; intros H k x I; [destruct (S' k x I) as [y J]|destruct (S k x I) as [y J]]; exact (H k y J)).
Qed.

Section Strict.
Variable uri_eqb : uri -> uri -> bool.
Lemma loc_imp {A} (f g : A -> A -> bool) x y : (f (l_val x) (l_val y) = true -> g (l_val x) (l_val y) = true) ->
  located_strict f x y = true -> located_eqb g x y = true.
Proof. intros H. unfold located_strict, located_eqb. rewrite andb_true_iff. tauto. Qed.
Lemma dc_strict_eq a : forall b, dcontent_strict uri_eqb a b = true -> dcontent_eqb uri_eqb a b = true.
Proof.
  induction a as [t|k cs IH|k|l] using dcontent_ind'; intros [t'|k' cs'|k'|l']; cbn; auto.
  rewrite !andb_true_iff. intros [A B]. split; auto. revert B. apply list_eqb_imp. rewrite Forall_forall in IH.
  intros x y Ix Iy. apply loc_imp. auto.
Qed.
Lemma inline_strict_eq a b : inline_strict uri_eqb a b = true -> inline_eqb uri_eqb a b = true.
Proof.
  destruct a, b; cbn; auto. rewrite !andb_true_iff. intros [A B]. split; auto. revert B. apply list_eqb_imp.
  intros x y _ _. apply loc_imp, dc_strict_eq.
Qed.
Lemma cont_strict_eq a b : container_strict uri_eqb a b = true -> container_eqb uri_eqb a b = true.
Proof. apply list_eqb_imp. intros x y _ _. apply loc_imp, inline_strict_eq. Qed.
Lemma cell_strict_eq a b : cell_strict uri_eqb a b = true -> cell_eqb uri_eqb a b = true.
Proof. destruct a, b; cbn; auto. apply cont_strict_eq. Qed.
Lemma table_strict_eq a b : ok_table a -> ok_table b -> table_strict uri_eqb a b = true -> table_eqb uri_eqb a b = true.
Proof.
  intros (Ka & Ca & _) (Kb & Cb & _). unfold table_strict, table_eqb. rewrite !andb_true_iff. intros [E M].
  pose proof (keys_perm _ _ _ _ cellpos_eqb_eq Ka Kb M) as P. destruct (counts_perm a b Ca Cb P) as [-> ->].
  rewrite !Nat.eqb_refl. repeat split; auto. revert M. apply map_eqb_imp. intros x y. apply loc_imp, cell_strict_eq.
Qed.

Variable P : container -> Prop.
Hypothesis HP : forall a b, P a -> container_strict uri_eqb a b = true -> container_display a = container_display b.
Lemma value_strict_eq a b : P a -> container_strict uri_eqb a b = true -> def_value_eqb a b = true.
Proof. intros Pa H. apply str_eqb_eq. now apply HP. Qed.
Lemma td_strict_eq a b : td_values P a -> term_defs_strict uri_eqb a b = true -> term_defs_eqb a b = true.
Proof.
  intros [V1 V2]. unfold term_defs_strict, term_defs_eqb. rewrite all_in in V2. rewrite !andb_true_iff. intros [A B]. split.
  - revert A. apply loc_imp. now apply value_strict_eq.
  - revert B. apply loc_imp. apply list_eqb_imp. intros x y Ix _. apply loc_imp. apply value_strict_eq. auto.
Qed.
Lemma block_strict_eq a : forall b, ok_block a -> ok_block b -> values P a ->
  block_strict uri_eqb a b = true -> block_eqb uri_eqb a b = true.
Proof.
  apply (block_ind'
    (fun a => forall b, ok_block a -> ok_block b -> values P a -> block_strict uri_eqb a b = true -> block_eqb uri_eqb a b = true)
    (fun a => forall b, ok_item a -> ok_item b -> item_values P a -> item_strict uri_eqb a b = true -> item_eqb uri_eqb a b = true)); clear a.
  - intros a N b Wa Wb V. destruct a; try (now destruct (N _ eq_refl)); destruct b; cbn [block_strict block_eqb]; auto.
    + cbn in V. rewrite all_in in V. apply list_eqb_imp. intros x y I _. apply loc_imp. apply td_strict_eq. auto.
    + unfold header_strict, header_eqb. rewrite !andb_true_iff. intros [[A B] C]. apply cont_strict_eq in C. tauto.
    + apply list_eqb_imp. intros x y _ _. apply cont_strict_eq.
    + apply table_strict_eq; assumption.
  - intros items IH b Wa Wb V. destruct b as [| | | |items'| | | | |]; auto.
    cbn [ok_block values] in Wa, Wb, V. rewrite all_in in Wa, Wb, V. rewrite Forall_forall in IH.
    change (list_eqb (located_strict (item_strict uri_eqb)) items items' = true -> list_eqb (located_eqb (item_eqb uri_eqb)) items items' = true).
    apply list_eqb_imp. intros x y Ix Iy. apply loc_imp. apply IH; [assumption| | |]; [now apply Wa|now apply Wb|now apply V].
  - intros ty suf pos cs todo IH [ty' suf' pos' cs' todo'] Wa Wb V.
    cbn [ok_item item_values] in Wa, Wb, V. rewrite all_in in Wa, Wb, V. rewrite Forall_forall in IH.
    change (item_ty_eqb ty ty' && suffix_eqb suf suf' && (pos =? pos') && list_eqb (located_strict (block_strict uri_eqb)) cs cs' && opt_eqb todo_eqb todo todo' = true ->
      item_ty_eqb ty ty' && suffix_eqb suf suf' && (pos =? pos') && list_eqb (located_eqb (block_eqb uri_eqb)) cs cs' && opt_eqb todo_eqb todo todo' = true).
    rewrite !andb_true_iff. intros [[A B] C]. repeat split; try tauto. revert B. apply list_eqb_imp.
    intros x y Ix Iy. apply loc_imp. apply IH; [assumption| | |]; [now apply Wa|now apply Wb|now apply V].
Qed.
Lemma page_strict_eq a b : ok_page a -> ok_page b -> page_values P a -> page_strict uri_eqb a b = true -> page_eqb uri_eqb a b = true.
Proof.
  unfold ok_page, page_values. rewrite !all_in. intros A B V. apply list_eqb_imp. intros x y Ix Iy. apply loc_imp.
  apply block_strict_eq; auto.
Qed.
End Strict.

(** * Textual forms *)

Lemma flat_strict {A} (f : A -> A -> bool) (g : A -> str) l :
  forall m, (forall x y, In x l -> f (l_val x) (l_val y) = true -> g (l_val x) = g (l_val y)) ->
  list_eqb (located_strict f) l m = true -> flat_map (fun x => g (l_val x)) l = flat_map (fun x => g (l_val x)) m.
Proof.
  induction l as [|x l IH]; intros [|y m] H; cbn; try discriminate; auto.
  unfold located_strict at 1. rewrite !andb_true_iff. intros [[E _] F]. f_equal; [apply H; cbn; auto|].
  apply IH; auto. intros. apply H; cbn; auto.
Qed.
Section Shown.
Variable uri_eqb : uri -> uri -> bool.
Hypothesis Hd : forall u v, uri_eqb u v = true -> uri_display u = uri_display v.
Lemma desc_shown a : forall b, desc_eqb uri_eqb a b = true -> desc_display a = desc_display b
with data_shown a : forall b, link_data_eqb uri_eqb a b = true -> link_data_display a = link_data_display b.
Proof.
  - destruct a as [s|x]; intros [t|y] H; try discriminate H.
    + apply str_eqb_eq in H. exact H.
    + exact (data_shown x y H).
  - destruct a as [u d p]; intros [u' d' p'] H.
    change (uri_eqb u u' && match d, d' with Some x, Some y => desc_eqb uri_eqb x y | None, None => true | _, _ => false end &&
              opt_eqb (map_eqb str_eqb str_eqb) p p' = true) in H.
    rewrite !andb_true_iff in H. destruct H as [[A B] _]. destruct d as [x|], d' as [y|]; try discriminate B.
    + exact (desc_shown x y B).
    + exact (Hd u u' A).
Qed.
Lemma link_shown a b : link_eqb uri_eqb a b = true -> link_display a = link_display b.
Proof.
  destruct a as [x|i x|s x|dt x|x|x], b as [y|j y|t y|dt' y|y|y]; cbn [link_eqb]; try discriminate; rewrite ?andb_true_iff; intro H;
    try (apply data_shown; cbn; tauto).
  destruct H as [A B]. apply date_eqb_eq in A. subst. pose proof (data_shown x y B) as S. cbn.
  destruct x as [u [d|] p], y as [u' [d'|] p']; cbn in *; auto; rewrite !andb_true_iff in B; destruct B as [[_ B] _]; discriminate.
Qed.
Lemma dc_shown a : forall b, dcontent_strict uri_eqb a b = true -> dcontent_display a = dcontent_display b.
Proof.
  induction a as [t|k cs IH|k|l] using dcontent_ind'; intros [t'|k' cs'|k'|l']; cbn [dcontent_strict dcontent_display]; try discriminate.
  - apply str_eqb_eq.
  - rewrite andb_true_iff. intros [_ B]. rewrite Forall_forall in IH. revert B. apply flat_strict. intros; now apply IH.
  - intro H. apply keyword_eqb_eq in H. now subst.
  - apply link_shown.
Qed.
Lemma cont_shown a b : container_strict uri_eqb a b = true -> container_display a = container_display b.
Proof.
  apply flat_strict. intros x y _. destruct (l_val x), (l_val y); cbn [inline_strict inline_display]; try discriminate; intro H.
  - now apply str_eqb_eq.
  - apply andb_true_iff in H as [_ H]. revert H. apply flat_strict. intros. now apply dc_shown.
  - apply keyword_eqb_eq in H. now subst.
  - now apply link_shown.
  - apply strs_eqb_eq in H. now subst.
  - now apply str_eqb_eq.
  - now apply str_eqb_eq.
  - apply comment_eqb_eq in H. now subst.
Qed.
End Shown.
Section Linkless.
Variable uri_eqb : uri -> uri -> bool.
Lemma dc_linkless_shown a : forall b, dc_linkless a -> dcontent_strict uri_eqb a b = true -> dcontent_display a = dcontent_display b.
Proof.
  induction a as [t|k cs IH|k|l] using dcontent_ind'; intros [t'|k' cs'|k'|l'] L; cbn [dcontent_strict dcontent_display]; try discriminate.
  - apply str_eqb_eq.
  - rewrite andb_true_iff. intros [_ B]. cbn in L. rewrite all_in in L. rewrite Forall_forall in IH. revert B. apply flat_strict.
    intros; apply IH; auto.
  - intro H. apply keyword_eqb_eq in H. now subst.
  - destruct L.
Qed.
Lemma linkless_shown a b : linkless a -> container_strict uri_eqb a b = true -> container_display a = container_display b.
Proof.
  unfold linkless. rewrite all_in. intro L. apply flat_strict. intros x y I. specialize (L x I).
  destruct (l_val x), (l_val y); cbn [inline_strict inline_display]; try discriminate; intro H.
  - now apply str_eqb_eq.
  - apply andb_true_iff in H as [_ H]. rewrite all_in in L. revert H. apply flat_strict. intros. apply dc_linkless_shown; auto.
  - apply keyword_eqb_eq in H. now subst.
  - destruct L.
  - apply strs_eqb_eq in H. now subst.
  - now apply str_eqb_eq.
  - now apply str_eqb_eq.
  - apply comment_eqb_eq in H. now subst.
Qed.
End Linkless.

(** * Hashing *)

Lemma insert_str_comm s t l : insert_str s (insert_str t l) = insert_str t (insert_str s l).
Proof.
  destruct (str_eqb s t) eqn:X; [apply str_eqb_eq in X; now subst|].
  assert (N : s <> t) by (intros ->; rewrite (proj2 (str_eqb_eq t t) eq_refl) in X; discriminate).
  assert (D : str_leb s t = negb (str_leb t s)).
  { destruct (str_leb s t) eqn:A, (str_leb t s) eqn:B; auto.
    - destruct N. now apply str_leb_anti.
    - destruct (str_leb_total s t); congruence. }
  induction l as [|r l IH]; cbn.
  - rewrite D. destruct (str_leb t s); reflexivity.
  - destruct (str_leb t r) eqn:Q, (str_leb s r) eqn:P; cbn; rewrite ?Q, ?P.
    + rewrite D. destruct (str_leb t s) eqn:E; cbn; rewrite ?Q, ?P; reflexivity.
    + destruct (str_leb s t) eqn:E; [|reflexivity].
      assert (str_leb s r = true) by (eapply str_leb_trans; eauto). congruence.
    + destruct (str_leb t s) eqn:E; [|reflexivity].
      assert (str_leb t r = true) by (eapply str_leb_trans; eauto). congruence.
    + now rewrite IH.
Qed.
Lemma sort_strs_perm l m : Permutation l m -> sort_strs l = sort_strs m.
Proof.
  induction 1 as [|x l m P IH|x y l|l m n P1 IH1 P2 IH2]; auto; cbn.
  - f_equal. exact IH.
  - apply insert_str_comm.
  - now rewrite IH1.
Qed.
Section Hash.
Variables (uri_eqb : uri -> uri -> bool) (uri_hash : uri -> list token).
Hypothesis Hu : forall u v, uri_eqb u v = true -> uri_hash u = uri_hash v.
Lemma desc_hash_eq a : forall b, ok_desc a -> ok_desc b -> desc_eqb uri_eqb a b = true -> desc_hash uri_hash a = desc_hash uri_hash b
with data_hash_eq a : forall b, ok_data a -> ok_data b -> link_data_eqb uri_eqb a b = true -> link_data_hash uri_hash a = link_data_hash uri_hash b.
Proof.
  - destruct a as [s|x]; intros [t|y] Wa Wb H; try discriminate H.
    + apply str_eqb_eq in H. subst. reflexivity.
    + change (tk 1 ++ link_data_hash uri_hash x = tk 1 ++ link_data_hash uri_hash y).
      rewrite (data_hash_eq x y Wa Wb H). reflexivity.
  - destruct a as [u d p]; intros [u' d' p'] [Wd Wp] [Wd' Wp'] H.
    change (uri_eqb u u' && match d, d' with Some x, Some y => desc_eqb uri_eqb x y | None, None => true | _, _ => false end &&
              opt_eqb (map_eqb str_eqb str_eqb) p p' = true) in H.
    rewrite !andb_true_iff in H. destruct H as [[A B] C].
    assert (HD : match d with None => tk 0 | Some y => tk 1 ++ desc_hash uri_hash y end =
                 match d' with None => tk 0 | Some y => tk 1 ++ desc_hash uri_hash y end).
    { destruct d as [x|], d' as [y|]; try discriminate B; [|reflexivity]. rewrite (desc_hash_eq x y Wd Wd' B). reflexivity. }
    assert (HP : match p with None => [] | Some m => flat_map str_hash (sort_strs (map fst m)) end =
                 match p' with None => [] | Some m => flat_map str_hash (sort_strs (map fst m)) end).
    { destruct p as [m|], p' as [m'|]; try discriminate C; [|reflexivity]. cbn in C.
      rewrite (sort_strs_perm (map fst m) (map fst m')); [reflexivity|].
      exact (keys_perm str_eqb str_eqb m m' (fun a b => str_eqb_eq a b) Wp Wp' C). }
    change (uri_hash u ++ match d with None => tk 0 | Some y => tk 1 ++ desc_hash uri_hash y end ++
              match p with None => [] | Some m => flat_map str_hash (sort_strs (map fst m)) end =
            uri_hash u' ++ match d' with None => tk 0 | Some y => tk 1 ++ desc_hash uri_hash y end ++
              match p' with None => [] | Some m => flat_map str_hash (sort_strs (map fst m)) end).
    rewrite HD, HP, (Hu u u' A). reflexivity.
Qed.
Lemma link_hash_eq a b : ok_link a -> ok_link b -> link_eqb uri_eqb a b = true -> link_hash uri_hash a = link_hash uri_hash b.
Proof.
  unfold ok_link. destruct a, b; cbn [link_eqb link_hash link_get_data]; try discriminate; rewrite ?andb_true_iff; intros Wa Wb H;
    try (now rewrite (data_hash_eq _ _ Wa Wb H)); destruct H as [E H]; rewrite (data_hash_eq _ _ Wa Wb H).
  - apply N.eqb_eq in E. now subst.
  - apply str_eqb_eq in E. now subst.
  - apply date_eqb_eq in E. now subst.
Qed.
Lemma list_hash_eq {A} (f : A -> A -> bool) (h : A -> list token) l m :
  (forall x y, In x l -> In y m -> f x y = true -> h x = h y) -> list_eqb f l m = true -> list_hash h l = list_hash h m.
Proof.
  intros H E. assert (length l = length m /\ flat_map h l = flat_map h m) as [L F].
  { revert m H E. induction l as [|x l IH]; intros [|y m] H; cbn; try discriminate; auto. rewrite andb_true_iff. intros [E1 E2].
    destruct (IH m) as [L F]; auto; [intros; apply H; cbn; auto|]. rewrite L, F, (H x y); cbn; auto. }
  unfold list_hash. now rewrite L, F.
Qed.
Lemma dc_hash_eq a : forall b, ok_dc a -> ok_dc b -> dcontent_eqb uri_eqb a b = true -> dcontent_hash uri_hash a = dcontent_hash uri_hash b.
Proof.
  induction a as [t|k cs IH|k|l] using dcontent_ind'; intros [t'|k' cs'|k'|l'] Wa Wb; cbn [dcontent_eqb dcontent_hash]; try discriminate.
  - intro H. apply str_eqb_eq in H. now subst.
  - rewrite andb_true_iff. intros [A B]. apply deco_eqb_eq in A. subst. cbn in Wa, Wb. rewrite all_in in Wa, Wb. rewrite Forall_forall in IH.
    f_equal. f_equal. revert B. apply list_hash_eq. intros x y Ix Iy. apply IH; auto.
  - intro H. apply keyword_eqb_eq in H. now subst.
  - intro H. f_equal. now apply link_hash_eq.
Qed.
Lemma inline_hash_eq a b : ok_inline a -> ok_inline b -> inline_eqb uri_eqb a b = true -> inline_hash uri_hash a = inline_hash uri_hash b.
Proof.
  destruct a, b; cbn [inline_eqb inline_hash ok_inline]; try discriminate; intros Wa Wb H.
  - apply str_eqb_eq in H. now subst.
  - apply andb_true_iff in H as [A B]. apply deco_eqb_eq in A. subst. rewrite all_in in Wa, Wb.
    f_equal. f_equal. revert B. apply list_hash_eq. intros x y Ix Iy. apply dc_hash_eq; auto.
  - apply keyword_eqb_eq in H. now subst.
  - f_equal. now apply link_hash_eq.
  - apply strs_eqb_eq in H. now subst.
  - apply str_eqb_eq in H. now subst.
  - apply str_eqb_eq in H. now subst.
  - apply comment_eqb_eq in H. now subst.
Qed.
Lemma cont_hash_eq a b : ok_cont a -> ok_cont b -> container_eqb uri_eqb a b = true -> container_hash uri_hash a = container_hash uri_hash b.
Proof. unfold ok_cont. rewrite !all_in. intros Wa Wb. apply list_hash_eq. intros x y Ix Iy. apply inline_hash_eq; auto. Qed.
Lemma header_hash_eq a b : ok_cont (h_content a) -> ok_cont (h_content b) -> header_eqb uri_eqb a b = true -> header_hash uri_hash a = header_hash uri_hash b.
Proof.
  intros Wa Wb. unfold header_eqb, header_hash. rewrite !andb_true_iff, Nat.eqb_eq, Bool.eqb_true_iff. intros [[A ->] ->].
  now rewrite (cont_hash_eq _ _ Wa Wb A).
Qed.
Lemma cell_hash_eq a b : ok_cell a -> ok_cell b -> cell_eqb uri_eqb a b = true -> cell_hash uri_hash a = cell_hash uri_hash b.
Proof.
  destruct a, b; cbn [cell_eqb cell_hash ok_cell]; try discriminate; intros Wa Wb H.
  - f_equal. now apply cont_hash_eq.
  - apply span_eqb_eq in H. now subst.
  - apply align_eqb_eq in H. now subst.
Qed.
End Hash.
