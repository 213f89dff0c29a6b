(** Selection, pruning, runs without cache. *)
From Verif Require Import Base ModelSpan ModelAst ModelPath ModelCli SpecCli ProofBase ProofPath ProofCli ProofCli2.
Local Open Scope nat_scope.

(** * Selection *)

Lemma included_listed include i w : included include i (w_name w) = true <-> listed include i w.
Proof.
  unfold included, listed. destruct include as [|f l]; [split; auto|].
  rewrite existsb_exists. split.
  - intros ([j|n] & I & M); cbn in M.
    + apply Nat.eqb_eq in M. subst j. auto.
    + destruct (w_name w) as [m|]; [|discriminate]. apply str_eqb_eq in M. subst. right. right. eauto.
  - intros [H|[H|(n & E & H)]]; [discriminate|eexists; split; [exact H|apply Nat.eqb_refl]|].
    exists (IxName n). split; auto. cbn. rewrite E. now apply str_eqb_eq.
Qed.

Definition chosen (include : list index_or_name) (i : nat) (l : list wiki) : list wiki :=
  map snd (filter (fun x => included include (fst x) (w_name (snd x))) (combine (seq i (length l)) l)).
Lemma picked_chosen include l : forall i l', picked (listed include) i l l' -> l' = chosen include i l.
Proof.
  intros i l'. induction 1 as [i|i x l l' H P IH|i x l l' H P IH]; auto; subst; unfold chosen; cbn.
  - apply included_listed in H. now rewrite H.
  - destruct (included include i (w_name x)) eqn:E; auto. apply included_listed in E. tauto.
Qed.
Lemma chosen_picked include l : forall i, picked (listed include) i l (chosen include i l).
Proof.
  induction l as [|x l IH]; intro i; [constructor|]. unfold chosen. cbn.
  destruct (included include i (w_name x)) eqn:E; cbn.
  - constructor; [now apply included_listed | apply IH].
  - constructor; [|apply IH]. rewrite <- included_listed. congruence.
Qed.

Lemma config_spec home opt config vim fs base wanted :
  configured opt config vim base -> picked (listed (o_include opt)) 0 base wanted ->
  load_html_config (fun _ _ => None) home opt config vim [] fs = Some wanted.
Proof.
  intros C P. apply picked_chosen in P. subst wanted. unfold load_html_config. cbn [extra_wikis]. f_equal.
  unfold chosen, enumerate. rewrite app_nil_r.
  assert (E : match config with
   | [] => match vim with Some l => l ++ config | None => config end
   | _ :: _ => if o_merge opt then match vim with Some l => l ++ config | None => config end else config
   end = base).
  { destruct C as [([C|C] & l & -> & ->)|[([C|C] & -> & ->)|(C & D & ->)]]; subst; auto.
    - rewrite C. destruct config; reflexivity.
    - destruct config; [|rewrite C]; reflexivity.
    - destruct config; [congruence|]. now rewrite D. }
  now rewrite E.
Qed.

Definition kept (include : list index_or_name) (ws : list wiki) : Prop :=
  forall i w, nth_error ws i = Some w -> listed include i w.
Lemma kept_filter include ws : kept include ws ->
  filter (fun x => included include (fst x) (w_name (snd x))) (enumerate ws) = enumerate ws.
Proof.
  intro K. apply forallb_filter_id, forallb_forall. intros [i w] I. apply enumerate_in in I.
  now apply included_listed, K.
Qed.
Lemma kept_nil ws : kept [] ws.
Proof. intros i w _. now left. Qed.
Lemma names_kept include base wanted : (forall i, ~ In (IxIndex i) include) -> forall k,
  picked (listed include) k base wanted -> kept include wanted.
Proof.
  intros N k P i w E. apply nth_error_In in E.
  induction P as [k|k x l l' H P IH|k x l l' H P IH]; [destruct E| |now apply IH].
  destruct E as [<-|E]; [|now apply IH]. destruct H as [H|[H|H]].
  - now left.
  - now apply N in H.
  - right. now right.
Qed.

Section Sel.
Variable utf8 : str -> bool.
Variable sha : str -> str.
Variable parse : str -> pres.
Variable ser : page -> str.
Variable de : str -> option page.
Variable html : list wiki -> option nat -> path -> page -> ires str.
Variable home : path.
Variable css : str.
Local Notation convert := (run_convert utf8 sha parse ser de html home css).

Lemma select_stable opt stdout with_css config vim base wanted fs :
  configured opt config vim base -> picked (listed (o_include opt)) 0 base wanted -> kept (o_include opt) wanted ->
  convert opt stdout with_css config vim fs = convert (with_include opt []) stdout with_css wanted None fs.
Proof.
  intros C P K. unfold run_convert. rewrite (config_spec home opt config vim fs base wanted C P).
  assert (E : load_html_config (fun _ _ => None) home (with_include opt []) wanted None [] fs = Some wanted).
  { apply (config_spec home (with_include opt []) wanted None fs wanted wanted).
    - destruct wanted; [|destruct (o_merge opt) eqn:M].
      + right. left. auto.
      + right. left. cbn. auto.
      + right. right. cbn. split; [discriminate|auto].
    - cbn [with_include o_include]. clear. generalize 0. induction wanted as [|w l IH]; intro k; constructor; auto. now left. }
  rewrite E. cbn [with_include o_include o_cache o_no_cache o_no_prune].
  unfold load_ast, convert_wikis. cbn [with_include o_include o_cache o_no_cache o_no_prune].
  rewrite (kept_filter (o_include opt) wanted K), (kept_filter [] wanted (kept_nil wanted)). reflexivity.
Qed.
End Sel.

(** * Pruning *)

Section Prune.
Variable utf8 : str -> bool.
Variable sha : str -> str.
Variable parse : str -> pres.
Variable ser : page -> str.
Variable de : str -> option page.
Variable cache : path.
Local Notation load := (load_wiki_file utf8 sha parse ser de).

Definition goes (sums : list str) (p : path) : bool :=
  match file_name p with
  | Some name => negb (utf8 name) || negb (existsb (str_eqb name) sums)
  | None => false
  end.
Lemma prune_effect sums l : forall s, NoDup l -> (forall p, In p l -> is_file s p = true) ->
  snd (each_io (prune_one utf8 sums) l s) = IOk tt /\
  act_all s (fst (each_io (prune_one utf8 sums) l s)) =
  filter (fun e => negb (existsb (fun p => path_eqb p (fst e)) l && goes sums (fst e))) s.
Proof.
  induction l as [|p l IH]; intros s N F; cbn.
  - split; auto. symmetry. apply forallb_filter_id. now apply forallb_forall.
  - inversion_clear N as [|? ? N1 N2]. rewrite bind_acts.
    assert (P : prune_one utf8 sums p s = (if goes sums p then [ADel p] else [], IOk tt)).
    { unfold prune_one, goes. destruct (file_name p) as [name|]; auto. destruct (_ || _); auto.
      unfold ignore, remove_file. rewrite (F p) by now left. reflexivity. }
    rewrite P. cbn [fst snd].
    set (s1 := act_all s (if goes sums p then [ADel p] else [])).
    destruct (IH s1) as [I1 I2]; auto.
    { intros q J. unfold s1. destruct (goes sums p); cbn; [|apply F; now right].
      unfold is_file. rewrite fs_get_del. destruct (path_eqb q p) eqn:E.
      - apply path_eqb_eq in E. subst. tauto.
      - apply F. now right. }
    split; auto. rewrite act_all_app. fold s1. rewrite I2. unfold s1.
    destruct (goes sums p) eqn:G.
    + cbn [act_all fold_left act]. unfold fs_del. rewrite filter_comm. clear - G.
      induction s as [|[q n] s IHs]; cbn; auto.
      destruct (path_eqb p q) eqn:E; cbn.
      * apply path_eqb_eq in E. subst q. rewrite G. cbn.
        destruct (negb _); cbn; rewrite ?path_eqb_refl; cbn; exact IHs.
      * destruct (negb _); cbn; rewrite ?E; cbn; rewrite IHs; reflexivity.
    + cbn [act_all fold_left]. apply filter_ext. intros [q n]. cbn.
      destruct (path_eqb p q) eqn:E; auto. apply path_eqb_eq in E. subst q. rewrite G. now rewrite !andb_false_r.
Qed.

Lemma walk_nodup s root : wf_fs s -> NoDup (walk s root).
Proof. apply nodup_filter_map. Qed.
Lemma walk_file s root p : wf_fs s -> In p (walk s root) <-> (exists d, file_at s p d) /\ SpecCli.below root p.
Proof.
  intro W. unfold walk. rewrite in_map_iff. split.
  - intros ([q n] & <- & I). apply filter_In in I as [I J]. cbn in *. destruct n; [discriminate|].
    apply starts_below in J. split; auto. eexists. exact I.
  - intros [[d A] B]. exists (p, NdFile d). split; auto. apply filter_In. split; auto. cbn. now apply starts_below.
Qed.

Lemma prune_split wikis include fs :
  load_ast utf8 sha parse ser de wikis include cache false false fs =
  let l := fst (load_ast utf8 sha parse ser de wikis include cache false true fs) in
  match snd (load_ast utf8 sha parse ser de wikis include cache false true fs) with
  | IOk a => let s := act_all fs l in
             match each_io (prune_one utf8 (ast_sums a)) (walk s cache) s with
             | (l2, IOk _) => (l ++ l2, IOk a)
             | (l2, IErr) => (l ++ l2, IErr)
             | (l2, IPanic) => (l ++ l2, IPanic)
             end
  | IErr => (l, IErr)
  | IPanic => (l, IPanic)
  end.
Proof.
  unfold load_ast. cbn [orb]. rewrite (bind_acts (create_dir_all cache)). rewrite (bind_acts (create_dir_all cache)).
  destruct (snd (create_dir_all cache fs)) as [[]| |]; auto. cbn [fst snd].
  set (s0 := act_all fs (fst (create_dir_all cache fs))).
  rewrite !bind_acts.
  destruct (snd (fold_io _ _ _ s0)) as [a| |]; cbn [fst snd]; auto.
  rewrite !bind_acts. cbn [ret fst snd]. rewrite !app_nil_r.
  rewrite act_all_app. fold s0.
  match goal with |- context [each_io ?f ?l ?s] => destruct (each_io f l s) as [l2 [[]| |]] end;
    cbn [fst snd]; rewrite ?app_nil_r, ?app_assoc; reflexivity.
Qed.

Lemma sums_in a name : In name (ast_sums a) <-> exists w f, In w a /\ In f (aw_files w) /\ wf_sum f = name.
Proof.
  unfold ast_sums. rewrite in_flat_map. split.
  - intros (w & I & J). apply in_map_iff in J as (f & E & J). eauto.
  - intros (w & f & I & J & E). exists w. split; auto. apply in_map_iff. eauto.
Qed.
Lemma goes_iff a p : goes (ast_sums a) p = true <-> exists name, file_name p = Some name /\
    (utf8 name = false \/ ~ exists w f, In w a /\ In f (aw_files w) /\ wf_sum f = name).
Proof.
  unfold goes. split.
  - destruct (file_name p) as [name|]; [|discriminate]. intro H. exists name. split; auto.
    apply orb_true_iff in H as [H|H]; apply negb_true_iff in H; [now left|right].
    rewrite <- sums_in. intro I. enough (X : existsb (str_eqb name) (ast_sums a) = true) by congruence.
    apply existsb_exists. exists name. split; auto. now apply str_eqb_eq.
  - intros (name & -> & H). apply orb_true_iff. destruct H as [->|H]; [now left|right].
    apply negb_true_iff. destruct (existsb _ _) eqn:E; auto. destruct H. rewrite <- sums_in.
    apply existsb_exists in E as (x & I & E). apply str_eqb_eq in E. now subst.
Qed.

Lemma prune_exact wikis include fs l a : wf_fs fs ->
  load_ast utf8 sha parse ser de wikis include cache false false fs = (l, IOk a) ->
  exists l0, load_ast utf8 sha parse ser de wikis include cache false true fs = (l0, IOk a) /\
    forall p n, In (p, n) (act_all fs l) <-> In (p, n) (act_all fs l0) /\ ~ stale utf8 cache a p n.
Proof.
  intros W E. rewrite prune_split in E. cbv zeta in E.
  destruct (load_ast utf8 sha parse ser de wikis include cache false true fs) as [l0 r] eqn:E0. cbn [fst snd] in E.
  destruct r as [a0| |]; try discriminate.
  assert (Wl : wf_fs (act_all fs l0)) by now apply wf_act_all.
  destruct (prune_effect (ast_sums a0) (walk (act_all fs l0) cache) (act_all fs l0)) as [P1 P2].
  { now apply walk_nodup. }
  { intros p I. apply walk_file in I as [[d A] _]; auto. apply file_at_get in A; auto. unfold is_file. now rewrite A. }
  destruct (each_io _ _ _) as [l2 r2]. cbn [fst snd] in *. subst r2. injection E as <- <-.
  exists l0. split; auto. intros p n. rewrite act_all_app, P2, filter_In. cbn [fst].
  assert (X : In (p, n) (act_all fs l0) ->
    (existsb (fun q => path_eqb q p) (walk (act_all fs l0) cache) && goes (ast_sums a0) p = true <-> stale utf8 cache a0 p n)).
  { intro I. unfold stale. rewrite andb_true_iff, goes_iff, existsb_exists. split.
    - intros [(q & J & Q) G]. apply path_eqb_eq in Q. subst q. apply walk_file in J as [[d A] B]; auto.
      split; [|auto]. exists d. apply fs_get_in in I; auto. apply file_at_get in A; auto. congruence.
    - intros ((d & ->) & B & G). split; auto. exists p. split; [|apply path_eqb_refl].
      apply walk_file; auto. split; auto. exists d. exact I. }
  split.
  - intros [I N]. split; auto. intro St. apply X in St; auto. rewrite St in N. discriminate.
  - intros [I N]. split; auto. apply negb_true_iff. destruct (_ && _) eqn:E; auto. destruct N. now apply X.
Qed.

(** * What is loaded *)
Hypothesis Abs : absolute cache.
Local Notation out := (rest_of cache).

Lemma load_file_spec p nc s l f : load p cache nc s = (l, IOk f) ->
  wf_path f = p /\ exists text, fs_get p s = Some (NdFile text) /\ wf_sum f = sha text.
Proof.
  unfold load_wiki_file. rewrite bind_acts, read_spec.
  destruct (fs_get p s) as [[|text]|]; try discriminate. destruct (utf8 text); [|discriminate].
  cbn [fst snd app]. intro H. apply (f_equal snd) in H. cbn [snd] in H. revert H. rewrite bind_acts.
  destruct (snd (cached_page de cache nc (sha text) (act_all s []))) as [[pg|]| |]; try discriminate; cbn [snd].
  - cbn. intro H. injection H as <-. cbn. eauto.
  - destruct (parse text) as [pg| |]; cbn; try discriminate. rewrite bind_acts.
    destruct (snd (ignore _ _)); try discriminate. cbn. intro H. injection H as <-. cbn. eauto.
Qed.
Lemma load_out p nc s : out (act_all s (fst (load p cache nc s))) = out s.
Proof. rewrite out_all. now rewrite load_inside. Qed.

Lemma push_last a w f : push_file (length a) f (a ++ [w]) = a ++ [AstWiki (aw_index w) (aw_name w) (aw_path w) (aw_files w ++ [f])].
Proof. induction a as [|x a IH]; cbn; congruence. Qed.

Lemma files_loaded nc a i nm pth : i = length a -> forall ps fl s l a',
  fold_io (fun a p => f <- load p cache nc ; ret (push_file i f a)) ps (a ++ [AstWiki i nm pth fl]) s = (l, IOk a') ->
  Forall (fun p => ~ SpecCli.below cache p) ps ->
  exists fl', a' = a ++ [AstWiki i nm pth (fl ++ fl')] /\ out (act_all s l) = out s /\
    Forall2 (fun p f => wf_path f = p /\ exists text, fs_get p s = Some (NdFile text) /\ wf_sum f = sha text) ps fl'.
Proof.
  intros -> ps. induction ps as [|p ps IH]; intros fl s l a' H F; cbn in H.
  - injection H as <- <-. exists []. rewrite app_nil_r. repeat split; auto.
  - inversion_clear F as [|? ? N F']. rewrite bind_acts in H.
    rewrite bind_acts in H. destruct (load p cache nc s) as [l1 r] eqn:L. cbn [fst snd] in H.
    destruct r as [f| |]; try discriminate. cbn [fst snd ret] in H. rewrite app_nil_r in H.
    rewrite push_last in H. cbn [aw_index aw_name aw_path aw_files] in H.
    match type of H with (_ ++ fst ?x, snd ?x) = _ => destruct x as [l2 r2] eqn:E2 end.
    cbn [fst snd] in H. injection H as <- ->.
    destruct (IH _ _ _ _ E2 F') as (fl' & -> & O & F2).
    assert (O1 : out (act_all s l1) = out s). { pose proof (load_out p nc s) as X. now rewrite L in X. }
    exists (f :: fl'). rewrite <- app_assoc. split; auto. split; [now rewrite act_all_app, O, O1|].
    constructor; [eapply load_file_spec; eauto|].
    assert (G : forall q, In q ps -> fs_get q (act_all s l1) = fs_get q s).
    { intros q I. rewrite Forall_forall in F'. apply (get_out cache); [exact O1 | exact (F' q I)]. }
    clear - F2 G. induction F2 as [|q g ps gs [H1 H2] F2 IH]; constructor.
    + split; auto. rewrite <- (G q) by now left. exact H2.
    + apply IH. intros x I. apply G. now right.
Qed.

(** The files of a wiki. *)
Definition wiki_page (s : fsys) (w : wiki) (p : path) (text : str) : Prop :=
  file_at s p text /\ SpecCli.below (w_path w) p /\ extension p = Some (w_ext w) /\ utf8 (w_ext w) = true.

Lemma ast_complete nc ws : Forall (fun w => apart cache (w_path w)) ws -> forall k a s l a', k = length a -> wf_fs s ->
  fold_io (load_wiki utf8 sha parse ser de cache nc) (combine (seq k (length ws)) ws) a s = (l, IOk a') ->
  (exists more, a' = a ++ more /\ length more = length ws) /\ out (act_all s l) = out s /\
  forall w p text, In w ws -> wiki_page s w p text ->
    exists aw f, In aw a' /\ In f (aw_files aw) /\ wf_path f = p /\ wf_sum f = sha text.
Proof.
  induction 1 as [|w ws Ap F IH]; intros k a s l a' -> W H; cbn in H.
  - injection H as <- <-. split; [exists []; now rewrite app_nil_r|]. split; auto. intros w p text [].
  - rewrite bind_acts in H.
    destruct (load_wiki utf8 sha parse ser de cache nc a (length a, w) s) as [l1 r] eqn:L.
    cbn [fst snd] in H. destruct r as [a1| |]; try discriminate. cbn [fst snd] in H.
    match type of H with (_ ++ fst ?x, snd ?x) = _ => destruct x as [l2 r2] eqn:E2 end.
    cbn [fst snd] in H. injection H as <- ->.
    unfold load_wiki in L. cbn [fst snd] in L.
    destruct (files_loaded nc a (length a) (w_name w) (w_path w) eq_refl _ [] s l1 a1 L) as (fl & -> & O & F2).
    { apply Forall_forall. intros p I. apply filter_In in I as [I _]. apply walk_file in I as [_ B]; auto.
      intro B'. destruct Ap as [A1 A2]. destruct B as [r E], B' as [r' E']. rewrite E in E'.
      apply app_eq_app in E' as (m & [[X _]|[X _]]); [apply A1; exists m | apply A2; exists m]; exact X. }
    destruct (IH (S (length a)) (a ++ [AstWiki (length a) (w_name w) (w_path w) ([] ++ fl)]) (act_all s l1) l2 a')
      as ((more & -> & Lm) & O2 & C).
    { rewrite app_length. cbn. lia. }
    { now apply wf_act_all. }
    { exact E2. }
    split; [|split].
    + exists (AstWiki (length a) (w_name w) (w_path w) ([] ++ fl) :: more). rewrite <- app_assoc. cbn. auto.
    + now rewrite act_all_app, O2, O.
    + intros v p text [<-|I] (A & B & E & U).
      * assert (J : In p (filter (has_ext utf8 (w_ext w)) (walk s (w_path w)))).
        { apply filter_In. split; [apply walk_file; eauto|]. unfold has_ext. rewrite E, U. now apply str_eqb_eq. }
        assert (X : exists f, In f fl /\ wf_path f = p /\ exists text, fs_get p s = Some (NdFile text) /\ wf_sum f = sha text).
        { clear - F2 J. induction F2 as [|q g ps gs H F2 IH]; [destruct J|]. destruct J as [->|J].
          - exists g. split; [now left|exact H].
          - destruct (IH J) as (f & I & R). exists f. split; [now right|exact R]. }
        destruct X as (f & I & P & t & G & S). exists (AstWiki (length a) (w_name w) (w_path w) ([] ++ fl)), f.
        split; [apply in_or_app; left; apply in_or_app; right; now left|]. split; auto. split; auto.
        apply file_at_get in A; auto. congruence.
      * apply (C v p text I). split; [|auto].
        assert (N : ~ SpecCli.below cache p).
        { intros [r' E']. rewrite Forall_forall in F. destruct (F v I) as [A1 A2]. destruct B as [r E1]. rewrite E1 in E'.
          apply app_eq_app in E' as (m & [[X _]|[X _]]); [apply A1; exists m | apply A2; exists m]; exact X. }
        apply file_at_get; [now apply wf_act_all|]. rewrite (get_out cache (act_all s l1) s p O N). now apply file_at_get.
Qed.

Lemma load_complete ws include fs l a np : wf_fs fs -> ready cache fs ->
  Forall (fun w => apart cache (w_path w)) ws -> kept include ws ->
  load_ast utf8 sha parse ser de ws include cache false np fs = (l, IOk a) ->
  forall w p text, In w ws -> wiki_page fs w p text ->
    exists aw f, In aw a /\ In f (aw_files aw) /\ wf_path f = p /\ wf_sum f = sha text.
Proof.
  intros W R Ap K. rewrite (load_ast_start utf8 sha parse ser de cache) by now right.
  rewrite (kept_filter include ws K). unfold enumerate. rewrite bind_acts.
  match goal with |- context [fold_io ?f ?l [] fs] => destruct (fold_io f l [] fs) as [l1 r] eqn:E end. cbn [fst snd]. destruct r as [a1| |]; try discriminate.
  rewrite bind_acts. destruct (snd _); try discriminate. cbn. intro H. injection H as _ <-.
  destruct (ast_complete false ws Ap 0 [] fs l1 a1 eq_refl W E) as (_ & _ & C). exact C.
Qed.
End Prune.

(** * Without cache *)
Section NoCache.
Variable utf8 : str -> bool.
Variable sha : str -> str.
Variable parse : str -> pres.
Variable ser : page -> str.
Variable de : str -> option page.
Variable cache : path.
Local Notation load := (load_wiki_file utf8 sha parse ser de).

(** Only cache files of read texts are written, and only into an existing directory. *)
Definition only_cache (s : fsys) (a : action) : Prop :=
  exists q name d, a = AWrite (cache_path cache name) d /\ path_parent (cache_path cache name) = Some q /\ is_dir s q = true.
Lemma dir_before x p d q : is_dir (fs_set p (NdFile d) x) q = true -> is_dir x q = true.
Proof.
  unfold is_dir. rewrite fs_get_set. destruct (path_eqb q [CRoot]); auto.
  destruct (path_eqb q p); [discriminate|auto].
Qed.
Lemma dir_after_write s q l : Forall (only_cache s) l -> is_dir (act_all s l) q = true -> is_dir s q = true.
Proof.
  intro F. assert (G : forall x, (is_dir x q = true -> is_dir s q = true) -> is_dir (act_all x l) q = true -> is_dir s q = true).
  { induction F as [|a l (r & name & d & -> & _) F IH]; intros x H; cbn; auto. apply IH. cbn.
    intro E. apply H. eapply dir_before; eauto. }
  apply G. auto.
Qed.
Definition tidy {A} (m : io A) : Prop := forall s, Forall (only_cache s) (fst (m s)).
Lemma only_later s l a : Forall (only_cache s) l -> only_cache (act_all s l) a -> only_cache s a.
Proof. intros F (q & name & d & -> & P & D). exists q, name, d. repeat split; auto. eapply dir_after_write; eauto. Qed.
Lemma tidy_bind {A B} (m : io A) (k : A -> io B) : tidy m -> (forall a, tidy (k a)) -> tidy (bind m k).
Proof.
  intros M K s. rewrite bind_acts. destruct (snd (m s)) as [a| |]; cbn [fst]; try apply M.
  apply Forall_app. split; [apply M|]. eapply Forall_impl; [|apply K]. intros x. apply only_later. apply M.
Qed.
Lemma tidy_quiet {A} (m : io A) : (forall s, fst (m s) = []) -> tidy m.
Proof. intros H s. rewrite H. constructor. Qed.
Lemma tidy_fold {A S} (f : S -> A -> io S) l : (forall s x, tidy (f s x)) -> forall s, tidy (fold_io f l s).
Proof. intro H. induction l as [|x l IH]; intro s; cbn; [now apply tidy_quiet|]. apply tidy_bind; auto. Qed.
Lemma tidy_load p : tidy (load p cache true).
Proof.
  unfold load_wiki_file. apply tidy_bind.
  { apply tidy_quiet. intro s. rewrite read_spec. destruct (fs_get p s) as [[|t]|]; auto. now destruct (utf8 t). }
  intro text. apply tidy_bind; [now apply tidy_quiet|]. intros [pg|]; [now apply tidy_quiet|].
  destruct (parse text) as [pg| |]; try now apply tidy_quiet.
  apply tidy_bind; [|intro; now apply tidy_quiet]. intro s. rewrite ignore_acts. unfold write_file.
  destruct (is_dir s _); [constructor|]. destruct (path_parent _) as [q|] eqn:P; [|constructor].
  destruct (is_dir s q) eqn:D; [|constructor]. constructor; [|constructor]. exists q, (sha text), (ser pg). auto.
Qed.
Lemma tidy_ast ws include np : tidy (load_ast utf8 sha parse ser de ws include cache true np).
Proof.
  unfold load_ast. apply tidy_bind; [now apply tidy_quiet|]. intros _. apply tidy_bind.
  - apply tidy_fold. intros a x s. unfold load_wiki. apply tidy_fold. intros b p.
    apply tidy_bind; [apply tidy_load|]. intro. now apply tidy_quiet.
  - intro a. rewrite orb_true_r. apply tidy_bind; [now apply tidy_quiet|]. intro. now apply tidy_quiet.
Qed.
End NoCache.
