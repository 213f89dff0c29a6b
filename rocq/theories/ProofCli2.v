(** Runs that differ only in the cache. *)
From Verif Require Import Base ModelSpan ModelAst ModelPath ModelCli SpecCli ProofBase ProofPath ProofCli.
Local Open Scope nat_scope.

Lemma starts_false p root : path_starts_with p root = false <-> ~ SpecCli.below root p.
Proof. rewrite <- starts_below. destruct (path_starts_with p root); split; congruence. Qed.
Lemma below_parent root p q : path_parent p = Some q -> SpecCli.below root q -> SpecCli.below root p.
Proof.
  unfold path_parent. intros H [r ->]. destruct (rev p) as [|c l] eqn:E; [discriminate|].
  assert (P : p = rev l ++ [c]). { rewrite <- (rev_involutive p), E. reflexivity. }
  destruct c; try discriminate; injection H as H; rewrite P, H, <- app_assoc; eexists; reflexivity.
Qed.
Lemma below_prefix root p k : SpecCli.below root (firstn k p) -> SpecCli.below root p.
Proof. intros [r H]. exists (r ++ skipn k p). rewrite app_assoc, <- H. symmetry. apply firstn_skipn. Qed.

Section Same.
Variable utf8 : str -> bool.
Variable sha : str -> str.
Variable parse : str -> pres.
Variable ser : page -> str.
Variable de : str -> option page.
Variable cache : path.
Hypothesis Abs : absolute cache.
Hypothesis Back : reads_back parse ser de.

Local Notation load := (load_wiki_file utf8 sha parse ser de).
Local Notation out := (rest_of cache).
Local Notation vis := (filter (outside cache)).

(** [rest_of] *)
Lemma out_get p s : ~ SpecCli.below cache p -> fs_get p (out s) = fs_get p s.
Proof.
  intro N. unfold rest_of. induction s as [|[q n] s IH]; cbn; auto.
  destruct (path_eqb p q) eqn:E.
  - apply path_eqb_eq in E. subst q. apply starts_false in N. rewrite N. cbn. now rewrite path_eqb_refl.
  - destruct (negb _); cbn; rewrite ?E; auto.
Qed.
Lemma out_set_in p n s : SpecCli.below cache p -> out (fs_set p n s) = out s.
Proof.
  intro B. apply starts_below in B. unfold rest_of. induction s as [|[q m] s IH]; cbn.
  - now rewrite B.
  - destruct (path_eqb p q) eqn:E; cbn.
    + apply path_eqb_eq in E. subst q. now rewrite B.
    + now rewrite IH.
Qed.
Lemma out_set p n s : ~ SpecCli.below cache p -> out (fs_set p n s) = fs_set p n (out s).
Proof.
  intro B. apply starts_false in B. unfold rest_of. induction s as [|[q m] s IH]; cbn.
  - now rewrite B.
  - destruct (path_eqb p q) eqn:E; cbn.
    + apply path_eqb_eq in E. subst q. rewrite B. cbn. now rewrite path_eqb_refl.
    + rewrite IH. destruct (negb _); cbn; rewrite ?E; reflexivity.
Qed.
Lemma filter_comm {A} (f g : A -> bool) l : filter f (filter g l) = filter g (filter f l).
Proof.
  induction l as [|x l IH]; cbn; auto.
  destruct (g x) eqn:G; destruct (f x) eqn:F; cbn; rewrite ?G, ?F, IH; reflexivity.
Qed.
Lemma out_del p s : ~ SpecCli.below cache p -> out (fs_del p s) = fs_del p (out s).
Proof. intros _. unfold rest_of, fs_del. apply filter_comm. Qed.
Lemma out_del_in p s : SpecCli.below cache p -> out (fs_del p s) = out s.
Proof.
  intro B. unfold rest_of, fs_del. induction s as [|[q m] s IH]; cbn; auto.
  destruct (path_eqb p q) eqn:E; cbn.
  - apply path_eqb_eq in E. subst q. apply starts_below in B. rewrite B. cbn. exact IH.
  - rewrite IH. reflexivity.
Qed.
Lemma out_act s a : out (act s a) = if outside cache a then act (out s) a else out s.
Proof.
  destruct a as [p d|p|p|x]; unfold outside; cbn [action_path act]; auto;
    destruct (path_starts_with p cache) eqn:E; cbn [negb].
  - apply out_set_in. now apply starts_below.
  - apply out_set. now apply starts_false.
  - apply out_del_in. now apply starts_below.
  - apply out_del. now apply starts_false.
  - apply out_set_in. now apply starts_below.
  - apply out_set. now apply starts_false.
Qed.
Lemma out_all l : forall s, out (act_all s l) = act_all (out s) (vis l).
Proof.
  induction l as [|a l IH]; intro s; [reflexivity|]. change (act_all s (a :: l)) with (act_all (act s a) l).
  rewrite IH, out_act. cbn [filter]. destruct (outside cache a); reflexivity.
Qed.
Lemma dir_out s s' p : out s = out s' -> ~ SpecCli.below cache p -> is_dir s p = is_dir s' p.
Proof. intros E N. unfold is_dir. now rewrite <- (out_get p s), <- (out_get p s'), E by auto. Qed.
Lemma get_out s s' p : out s = out s' -> ~ SpecCli.below cache p -> fs_get p s = fs_get p s'.
Proof. intros E N. now rewrite <- (out_get p s), <- (out_get p s'), E by auto. Qed.
Lemma walk_out s root : apart cache root -> walk s root = walk (out s) root.
Proof.
  intros [A B]. unfold walk, rest_of. f_equal. rewrite filter_comm.
  symmetry. apply forallb_filter_id. apply forallb_forall. intros [p n] I. apply filter_In in I as [_ I]. cbn in *.
  destruct n; [discriminate|]. apply starts_below in I as [r ->]. apply negb_true_iff, starts_false.
  intros [r' E]. apply app_eq_app in E as (l & [[E _]|[E _]]).
  - apply A. exists l. exact E.
  - apply B. exists l. exact E.
Qed.

(** Two computations that do the same outside the cache. *)
Definition ok (T : list str) (s : fsys) : Prop := wf_fs s /\ abs_fs s /\ sound sha parse de cache T s /\
  ((forall d, de d = None) \/ collision_free sha T).
Definition covers (T : list str) {A} (m : io A) (s : fsys) : Prop :=
  forall x, In x (states s (fst (m s))) -> incl (contents x) T.
Definition same {A} (m m' : io A) : Prop :=
  forall s s' T, ok T s -> ok T s' -> out s = out s' -> covers T m s -> covers T m' s' ->
    snd (m s) = snd (m' s') /\ vis (fst (m s)) = vis (fst (m' s')) /\
    Forall (safe sha parse ser cache T) (fst (m s)) /\ Forall (safe sha parse ser cache T) (fst (m' s')).

Lemma ok_all T l s : ok T s -> Forall (safe sha parse ser cache T) l -> ok T (act_all s l).
Proof.
  intros (W & A & S & C) F. split; [now apply wf_act_all|].
  split; [exact (abs_all sha parse ser cache Abs T l s F A)|]. split; auto.
  apply (sound_all sha parse ser de cache Abs Back); auto.
Qed.
Lemma covers_here T A (m : io A) s : covers T m s -> incl (contents s) T.
Proof. intro H. apply H. apply states_in. exists [], (fst (m s)). auto. Qed.
Lemma same_ret {A} (a : A) : same (ret a) (ret a).
Proof. intros s s' T _ _ _ _ _. cbn. auto. Qed.
Lemma same_bind {A B} (m m' : io A) (k k' : A -> io B) :
  same m m' -> (forall a, same (k a) (k' a)) -> same (bind m k) (bind m' k').
Proof.
  intros M K s s' T O O' E C C'. unfold covers in C, C'. rewrite bind_acts in *. rewrite (bind_acts m' k') in *.
  assert (C1 : covers T m s).
  { intros x I. apply C. destruct (snd (m s)); cbn [fst]; auto. now apply states_left. }
  assert (C1' : covers T m' s').
  { intros x I. apply C'. destruct (snd (m' s')); cbn [fst]; auto. now apply states_left. }
  destruct (M s s' T O O' E C1 C1') as (R & V & F & F'). rewrite <- R in *.
  destruct (snd (m s)) as [a| |]; cbn [fst snd] in *; auto.
  destruct (K a (act_all s (fst (m s))) (act_all s' (fst (m' s'))) T) as (R2 & V2 & F2 & F2').
  - now apply ok_all.
  - now apply ok_all.
  - rewrite !out_all, E, V. reflexivity.
  - intros x I. apply C. now apply states_right.
  - intros x I. apply C'. now apply states_right.
  - rewrite !filter_app, V, V2. repeat split; auto; apply Forall_app; auto.
Qed.
Lemma same_fold {A S} (f f' : S -> A -> io S) l : (forall s x, In x l -> same (f s x) (f' s x)) ->
  forall s, same (fold_io f l s) (fold_io f' l s).
Proof.
  induction l as [|x l IH]; intros H s; cbn; [apply same_ret|]. apply same_bind.
  - apply H. now left.
  - intro a. apply IH. intros b y J. apply H. now right.
Qed.
Lemma same_each {A} (f f' : A -> io unit) l : (forall x, In x l -> same (f x) (f' x)) ->
  same (each_io f l) (each_io f' l).
Proof.
  induction l as [|x l IH]; intro H; cbn; [apply same_ret|]. apply same_bind.
  - apply H. now left.
  - intro a. apply IH. intros y J. apply H. now right.
Qed.
(** A result that depends on the outside only. *)
Lemma same_quiet {A} (m m' : io A) : (forall s, fst (m s) = []) -> (forall s, fst (m' s) = []) ->
  (forall s s', out s = out s' -> snd (m s) = snd (m' s')) -> same m m'.
Proof. intros H H' R s s' T _ _ E _ _. rewrite H, H'. auto. Qed.
Lemma same_walk {A} (g g' : list path -> io A) root : apart cache root ->
  (forall l, Forall (fun p => absolute p /\ ~ SpecCli.below cache p) l -> same (g l) (g' l)) ->
  same (fun s => g (walk s root) s) (fun s => g' (walk s root) s).
Proof.
  intros Ap H s s' T O O' E C C'. unfold covers in *. rewrite (walk_out s), (walk_out s'), E in * by auto.
  apply (H (walk (out s') root)); auto. apply Forall_forall. intros p I.
  assert (As : abs_fs (out s')).
  { destruct O' as (_ & As & _). unfold abs_fs in *. rewrite Forall_forall in *. intros x Ix. apply filter_In in Ix as [Ix _]. auto. }
  split; [eapply walk_abs; eauto|].
  unfold walk in I. apply in_map_iff in I as ([q n] & <- & I).
  apply filter_In in I as [I _]. apply filter_In in I as [_ I]. cbn in *. apply starts_false. now apply negb_true_iff.
Qed.
(** Computations that only touch the cache and return nothing. *)
Lemma same_inside (m m' : io unit) : safe_io sha parse ser cache m -> safe_io sha parse ser cache m' ->
  (forall s, vis (fst (m s)) = [] /\ snd (m s) = IOk tt) -> (forall s, vis (fst (m' s)) = [] /\ snd (m' s) = IOk tt) ->
  same m m'.
Proof.
  intros S S' H H' s s' T (_ & A & _) (_ & A' & _) _ C C'. destruct (H s) as [-> ->], (H' s') as [-> ->].
  repeat split; [now apply S | now apply S'].
Qed.

Lemma vis_none l : Forall (fun a => outside cache a = false) l -> vis l = [].
Proof. induction 1; cbn; auto. now rewrite H. Qed.
Lemma cached_inside nc sum s : vis (fst (cached_page de cache nc sum s)) = [].
Proof.
  unfold cached_page. destruct nc; auto. destruct (fs_get _ s) as [n|]; auto.
  destruct (match n with NdFile d => de d | NdDir => None end); auto.
  rewrite bind_acts. unfold remove_file, ignore. destruct (is_file s (cache_path cache sum)); cbn [fst snd ret app]; auto.
  cbn [filter]. unfold outside. cbn [action_path].
  rewrite (proj2 (starts_below _ _) (cache_below cache Abs sum)). reflexivity.
Qed.
Lemma load_inside p nc s : vis (fst (load p cache nc s)) = [].
Proof.
  unfold load_wiki_file. rewrite bind_acts, read_spec.
  destruct (fs_get p s) as [[|text]|]; auto. destruct (utf8 text); auto. cbn [fst snd app act_all fold_left].
  rewrite bind_acts. pose proof (cached_inside nc (sha text) s) as H.
  destruct (snd (cached_page de cache nc (sha text) s)) as [[pg|]| |]; cbn [fst]; auto.
  - cbn. now rewrite app_nil_r.
  - rewrite filter_app, H. cbn [app]. destruct (parse text) as [pg| |]; auto.
    rewrite bind_acts, ignore_acts.
    assert (W : forall x, vis (fst (write_file (cache_path cache (sha text)) (ser pg) x)) = []).
    { intro x. unfold write_file. destruct (is_dir x _); auto. destruct (path_parent _) as [q|]; auto.
      destruct (is_dir x q); auto. cbn [fst filter]. unfold outside. cbn [action_path].
      rewrite (proj2 (starts_below _ _) (cache_below cache Abs (sha text))). reflexivity. }
    destruct (snd (ignore _ _)); cbn [fst ret]; rewrite ?app_nil_r; apply W.
Qed.

Lemma fresh_same s s' p r r' : wf_fs s -> wf_fs s' -> fs_get p s = fs_get p s' ->
  fresh utf8 sha parse s p r -> fresh utf8 sha parse s' p r' -> r = r'.
Proof.
  intros W W' G F F'.
  assert (A : forall t, file_at s p t <-> file_at s' p t). { intro t. rewrite !file_at_get; auto. now rewrite G. }
  assert (D : forall t t', file_at s p t -> file_at s' p t' -> t = t').
  { intros t t' H H'. apply A in H. apply file_at_get in H, H'; auto. congruence. }
  destruct F as [(t & Ht & U & R)|[(t & Ht & U & R)|[N R]]], F' as [(t' & Ht' & U' & R')|[(t' & Ht' & U' & R')|[N' R']]];
    try (assert (t = t') by eauto; subst t'); subst; try congruence;
    try (destruct (N' t); now apply A); try (destruct (N t'); now apply A).
Qed.
Lemma same_load p nc nc' : ~ SpecCli.below cache p -> same (load p cache nc) (load p cache nc').
Proof.
  intros N s s' T (W & A & S & C) (W' & A' & S' & _) E Cv Cv'. repeat split.
  - apply (fresh_same s s' p); auto.
    + now apply get_out.
    + apply (load_result utf8 sha parse ser de cache p nc s T); auto; [|tauto]. now apply (covers_here T _ (load p cache nc)).
    + apply (load_result utf8 sha parse ser de cache p nc' s' T); auto; [|tauto]. now apply (covers_here T _ (load p cache nc')).
  - now rewrite !load_inside.
  - now apply safe_load.
  - now apply safe_load.
Qed.

Lemma same_load_wiki nc nc' a x : apart cache (w_path (snd x)) ->
  same (load_wiki utf8 sha parse ser de cache nc a x) (load_wiki utf8 sha parse ser de cache nc' a x).
Proof.
  intros A. unfold load_wiki. apply (same_walk
    (fun l => fold_io (fun a p => f <- load p cache nc ; ret (push_file (fst x) f a))
       (filter (has_ext utf8 (w_ext (snd x))) l) (a ++ [AstWiki (fst x) (w_name (snd x)) (w_path (snd x)) []]))
    (fun l => fold_io (fun a p => f <- load p cache nc' ; ret (push_file (fst x) f a))
       (filter (has_ext utf8 (w_ext (snd x))) l) (a ++ [AstWiki (fst x) (w_name (snd x)) (w_path (snd x)) []]))); auto.
  intros l F. apply same_fold. intros b p I.
  apply same_bind; [|intro; apply same_ret]. apply same_load.
  apply filter_In in I as [I _]. rewrite Forall_forall in F. apply F, I.
Qed.

Lemma prune_inside sums : forall l, Forall (SpecCli.below cache) l -> forall x,
  vis (fst (each_io (prune_one utf8 sums) l x)) = [] /\ snd (each_io (prune_one utf8 sums) l x) = IOk tt.
Proof.
  induction 1 as [|p l B F IH]; intro x; cbn; auto. rewrite bind_acts.
  assert (P : vis (fst (prune_one utf8 sums p x)) = [] /\ snd (prune_one utf8 sums p x) = IOk tt).
  { unfold prune_one. destruct (file_name p); auto. destruct (_ || _); auto.
    unfold remove_file, ignore. destruct (is_file x p); auto. cbn. unfold outside. cbn [action_path].
    rewrite (proj2 (starts_below _ _) B). auto. }
  destruct P as [P1 P2]. rewrite P2. cbn [fst snd]. rewrite filter_app, P1. apply IH.
Qed.
Lemma walk_below s root : Forall (SpecCli.below root) (walk s root).
Proof.
  apply Forall_forall. intros p I. unfold walk in I. apply in_map_iff in I as ([q n] & <- & I).
  apply filter_In in I as [_ I]. cbn in *. destruct n; [discriminate|]. now apply starts_below.
Qed.

Lemma prefixes_in q p : In q (prefixes p) <-> exists k, 0 < k <= length p /\ q = firstn k p.
Proof.
  unfold prefixes. rewrite in_map_iff. split.
  - intros (k & <- & I). apply in_seq in I. exists k. split; auto. lia.
  - intros (k & H & ->). exists k. split; auto. apply in_seq. lia.
Qed.
Lemma mkdirs_ready p s : (forall k, 0 < k <= length p -> is_dir s (firstn k p) = true) ->
  create_dir_all p s = ([], IOk tt).
Proof.
  intro H. unfold create_dir_all.
  assert (G : forall l, (forall q, In q l -> is_dir s q = true) -> each_io (fun q fs =>
    if is_dir fs q then ([], IOk tt)
    else match fs_get q fs with None => ([AMkdir q], IOk tt) | Some _ => ([], IErr) end) l s = ([], IOk tt)).
  { induction l as [|q l IH]; intro I; cbn; auto. unfold bind. rewrite (I q) by now left. cbn.
    rewrite IH; auto. intros r J. apply I. now right. }
  apply G. intros q I. apply prefixes_in in I as (k & B & ->). now apply H.
Qed.

(** [load_ast] after the cache directory was made. *)
Lemma same_load_rest wikis include nc np nc' np' :
  Forall (fun w => apart cache (w_path w)) wikis ->
  same (a <- fold_io (load_wiki utf8 sha parse ser de cache nc)
         (filter (fun x => included include (fst x) (w_name (snd x))) (enumerate wikis)) [] ;
  _ <- (if np || nc then ret tt
        else fun fs => each_io (prune_one utf8 (ast_sums a)) (walk fs cache) fs) ;
  ret a) (a <- fold_io (load_wiki utf8 sha parse ser de cache nc')
         (filter (fun x => included include (fst x) (w_name (snd x))) (enumerate wikis)) [] ;
  _ <- (if np' || nc' then ret tt
        else fun fs => each_io (prune_one utf8 (ast_sums a)) (walk fs cache) fs) ;
  ret a).
Proof.
  intro A. apply same_bind.
  - apply same_fold. intros b x I. apply same_load_wiki. apply filter_In in I as [I _].
    destruct x as [i w]. apply enumerate_in, nth_error_In in I. rewrite Forall_forall in A. now apply A.
  - intro a. apply same_bind; [|intro; apply same_ret].
    assert (P : forall b, (forall s, vis (fst ((if b : bool then ret tt
        else fun fs => each_io (prune_one utf8 (ast_sums a)) (walk fs cache) fs) s)) = [] /\
        snd ((if b then ret tt
        else fun fs => each_io (prune_one utf8 (ast_sums a)) (walk fs cache) fs) s) = IOk tt)).
    { intros [|] s; [split; reflexivity|]. apply prune_inside; auto. apply walk_below. }
    assert (Q : forall b, safe_io sha parse ser cache (if b : bool then ret tt
        else fun fs => each_io (prune_one utf8 (ast_sums a)) (walk fs cache) fs)).
    { intros [|]; [apply safe_ret|]. intro fs. apply (safe_each sha parse ser cache Abs). intro. apply safe_prune. }
    apply same_inside; auto.
Qed.
Definition start_ok (nc : bool) (s : fsys) : Prop := nc = true \/ ready cache s.
Lemma load_ast_start wikis include nc np s : start_ok nc s ->
  load_ast utf8 sha parse ser de wikis include cache nc np s =
  (a <- fold_io (load_wiki utf8 sha parse ser de cache nc)
         (filter (fun x => included include (fst x) (w_name (snd x))) (enumerate wikis)) [] ;
  _ <- (if np || nc then ret tt
        else fun fs => each_io (prune_one utf8 (ast_sums a)) (walk fs cache) fs) ;
  ret a) s.
Proof.
  intro H. unfold load_ast.
  assert (E : (if nc then ret tt else create_dir_all cache) s = ([], IOk tt)).
  { destruct nc; auto. destruct H as [H|H]; [discriminate|]. now apply mkdirs_ready. }
  match goal with |- bind ?m ?k s = ?r => rewrite (bind_acts m k s) end. rewrite E. cbn [fst snd app act_all fold_left].
  match goal with |- (fst ?p, snd ?p) = _ => now destruct p end.
Qed.

(** * Converting *)
Variable html : list wiki -> option nat -> path -> page -> ires str.
Variable home : path.
Variable css : str.

Lemma same_write p d : absolute p -> ~ SpecCli.below cache p -> same (write_file p d) (write_file p d).
Proof.
  intros Ap N s s' T O O' E C C'. pose proof (proj1 (proj2 O)) as A. pose proof (proj1 (proj2 O')) as A'.
  assert (R : write_file p d s = write_file p d s').
  { unfold write_file. rewrite (dir_out s s') by auto. destruct (is_dir s' p); auto.
    destruct (path_parent p) as [q|] eqn:Q; auto.
    rewrite (dir_out s s' q); auto. intro B. apply N. eapply below_parent; eauto. }
  repeat split.
  - now rewrite R.
  - now rewrite R.
  - now apply safe_write.
  - now apply safe_write.
Qed.
Lemma same_mkdirs p : absolute p -> ~ SpecCli.below cache p -> same (create_dir_all p) (create_dir_all p).
Proof.
  intros Ap N. apply same_each. intros q I. apply prefixes_in in I as (k & B & ->).
  assert (Ak : absolute (firstn k p)) by (destruct k as [|k]; [lia|now apply abs_firstn]).
  assert (N' : ~ SpecCli.below cache (firstn k p)) by (intro X; apply N; eapply below_prefix; eauto).
  intros s s' T O O' E C C'. rewrite (dir_out s s'), (get_out s s') by auto.
  destruct (is_dir s' (firstn k p)); [repeat split; constructor|].
  destruct (fs_get (firstn k p) s'); repeat split; repeat constructor; exact Ak.
Qed.
Lemma same_load_file a p nc nc' : ~ SpecCli.below cache p ->
  same (load_file utf8 sha parse ser de a p cache nc) (load_file utf8 sha parse ser de a p cache nc').
Proof.
  intro N. unfold load_file. apply same_bind; [now apply same_load|]. intro f.
  destruct (find_file_by_path _ p); [apply same_ret|]. intros s s' T _ _ _ _ _. cbn. auto.
Qed.
Lemma same_convert_file wikis i a p nc nc' stdout : absolute p -> ~ SpecCli.below cache p ->
  outputs_outside cache (default_wiki home) -> Forall (outputs_outside cache) wikis ->
  same (convert_file utf8 sha parse ser de html home wikis i a p cache nc stdout)
       (convert_file utf8 sha parse ser de html home wikis i a p cache nc' stdout).
Proof.
  intros Ap N Hd Hw. unfold convert_file. apply same_bind.
  { destruct (find_file_by_path a p); [apply same_ret | now apply same_load_file]. }
  intro af. apply same_bind; [now apply same_quiet|]. intro text. apply same_bind; [|intro; apply same_ret].
  destruct stdout; [intros s s' T _ _ _ _ _; repeat split; repeat constructor|].
  set (w := match find_wiki_index_by_path _ p with Some _ => _ | None => _ end).
  assert (W : outputs_outside cache w).
  { unfold w. destruct (find_wiki_index_by_path _ p) as [k|]; auto.
    destruct (nth_error wikis k) eqn:E; auto. apply nth_error_In in E. rewrite Forall_forall in Hw. auto. }
  destruct (make_output_path w p (bs "html")) as [o|] eqn:E; [|now apply same_quiet].
  destruct (proj1 W p o Ap E) as [Ao No].
  apply same_bind; [|intros _; now apply same_write].
  destruct (path_parent o) as [q|] eqn:Q; [|apply same_ret]. apply same_mkdirs; [eapply abs_parent; eauto|].
  intro B. apply No. eapply below_parent; eauto.
Qed.
Lemma same_convert_path wikis nc nc' stdout ext a root : apart cache root ->
  outputs_outside cache (default_wiki home) -> Forall (outputs_outside cache) wikis ->
  same (convert_path utf8 sha parse ser de html home wikis cache nc stdout ext a root)
       (convert_path utf8 sha parse ser de html home wikis cache nc' stdout ext a root).
Proof.
  intros A Hd Hw. unfold convert_path. apply (same_walk
    (fun l => fold_io (fun a p =>
      convert_file utf8 sha parse ser de html home wikis (find_wiki_index_by_path (PathsConfig wikis None []) p) a p cache nc stdout)
      (filter (has_ext utf8 ext) l) a)
    (fun l => fold_io (fun a p =>
      convert_file utf8 sha parse ser de html home wikis (find_wiki_index_by_path (PathsConfig wikis None []) p) a p cache nc' stdout)
      (filter (has_ext utf8 ext) l) a)); auto.
  intros l F. apply same_fold. intros b p I. apply filter_In in I as [I _]. rewrite Forall_forall in F.
  destruct (F p I) as [F1 F2]. apply same_convert_file; auto.
Qed.
Lemma same_convert_wikis opt nc np nc' np' stdout with_css wikis a : o_cache opt = cache ->
  outputs_outside cache (default_wiki home) -> Forall (outputs_outside cache) wikis ->
  Forall (fun w => apart cache (w_path w)) wikis ->
  same (convert_wikis utf8 sha parse ser de html home css (opt_with opt nc np) stdout with_css wikis a)
       (convert_wikis utf8 sha parse ser de html home css (opt_with opt nc' np') stdout with_css wikis a).
Proof.
  intros Hc Hd Hw Ha. unfold convert_wikis. cbn. rewrite Hc. apply same_fold. intros b [i w] I.
  apply filter_In in I as [I _]. apply enumerate_in, nth_error_In in I. cbn [fst snd].
  rewrite Forall_forall in Ha, Hw. apply same_bind; [apply same_convert_path; auto; now apply Forall_forall|].
  intro b'. apply same_bind; [|intro; apply same_ret]. destruct (_ && _); [|apply same_ret].
  destruct (Hw w I) as (_ & H1 & H2). now apply same_write.
Qed.

Lemma config_in opt config vim fs ws : load_html_config (fun _ _ => None) home opt config vim [] fs = Some ws ->
  forall w, In w ws -> In w config \/ exists l, vim = Some l /\ In w l.
Proof.
  unfold load_html_config. cbn [extra_wikis]. intro E. injection E as <-. intros w I.
  apply in_map_iff in I as ([n x] & <- & I). apply filter_In in I as [I _].
  apply in_combine_r in I. cbn. rewrite app_nil_r in I.
  destruct vim as [l|]; [|left; destruct config; [auto|destruct (o_merge opt); auto]].
  assert (In x (l ++ config) \/ In x config) as [J|J].
  { destruct config; [auto|destruct (o_merge opt); auto]. }
  - apply in_app_or in J as [J|J]; eauto.
  - auto.
Qed.
Lemma every_loaded P opt config vim fs ws : every P config vim ->
  load_html_config (fun _ _ => None) home opt config vim [] fs = Some ws -> Forall P ws.
Proof.
  intros [H1 H2] E. apply Forall_forall. intros w I. destruct (config_in _ _ _ _ _ E w I) as [J|(l & -> & J)].
  - rewrite Forall_forall in H1. auto.
  - specialize (H2 l eq_refl). rewrite Forall_forall in H2. auto.
Qed.

Lemma convert_same opt nc np nc' np' stdout with_css config vim s s' T :
  o_cache opt = cache -> outputs_outside cache (default_wiki home) ->
  every (outputs_outside cache) config vim -> every (fun w => apart cache (w_path w)) config vim ->
  ok T s -> ok T s' -> out s = out s' -> start_ok nc s -> start_ok nc' s' ->
  covers T (run_convert utf8 sha parse ser de html home css (opt_with opt nc np) stdout with_css config vim) s ->
  covers T (run_convert utf8 sha parse ser de html home css (opt_with opt nc' np') stdout with_css config vim) s' ->
  snd (run_convert utf8 sha parse ser de html home css (opt_with opt nc np) stdout with_css config vim s) =
  snd (run_convert utf8 sha parse ser de html home css (opt_with opt nc' np') stdout with_css config vim s') /\
  vis (fst (run_convert utf8 sha parse ser de html home css (opt_with opt nc np) stdout with_css config vim s)) =
  vis (fst (run_convert utf8 sha parse ser de html home css (opt_with opt nc' np') stdout with_css config vim s')).
Proof.
  intros Hc Hd Hw Ha O O' E R R' C C'. unfold covers, run_convert in *.
  change (load_html_config (fun _ _ => None) home (opt_with opt nc' np') config vim [] s')
    with (load_html_config (fun _ _ => None) home (opt_with opt nc np) config vim [] s) in *.
  destruct (load_html_config _ home (opt_with opt nc np) config vim [] s) as [ws|] eqn:L; [|auto].
  pose proof (every_loaded _ _ _ _ _ _ Hw L) as Hw'. pose proof (every_loaded _ _ _ _ _ _ Ha L) as Ha'.
  set (k := fun o a => _ <- convert_wikis utf8 sha parse ser de html home css o stdout with_css ws a ; ret tt).
  set (m := fun nc np => a <- fold_io (load_wiki utf8 sha parse ser de cache nc)
         (filter (fun x => included (o_include opt) (fst x) (w_name (snd x))) (enumerate ws)) [] ;
  _ <- (if np || nc then ret tt
        else fun fs => each_io (prune_one utf8 (ast_sums a)) (walk fs cache) fs) ;
  ret a).
  assert (G : forall nc np x, start_ok nc x ->
    (a <- load_ast utf8 sha parse ser de ws (o_include (opt_with opt nc np)) (o_cache (opt_with opt nc np))
        (o_no_cache (opt_with opt nc np)) (o_no_prune (opt_with opt nc np)) ;
       _ <- convert_wikis utf8 sha parse ser de html home css (opt_with opt nc np) stdout with_css ws a ; ret tt) x =
    bind (m nc np) (k (opt_with opt nc np)) x).
  { intros c p x H. cbn [opt_with o_include o_cache o_no_cache o_no_prune]. rewrite Hc.
    rewrite !bind_acts. rewrite (load_ast_start ws (o_include opt) c p x) by exact H. reflexivity. }
  rewrite (G nc np s R) in *. rewrite (G nc' np' s' R') in *.
  assert (S : same (bind (m nc np) (k (opt_with opt nc np))) (bind (m nc' np') (k (opt_with opt nc' np')))).
  { apply same_bind; [now apply same_load_rest|]. intro a. apply same_bind; [|intro; apply same_ret].
    now apply same_convert_wikis. }
  destruct (S s s' T O O' E C C') as (S1 & S2 & _). auto.
Qed.
End Same.
