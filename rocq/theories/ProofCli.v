(** Proofs about the command line program. *)
From Coq Require Import Permutation.
From Verif Require Import Base ModelSpan ModelAst ModelPath ModelCli SpecCli ProofBase ProofPath.
Local Open Scope nat_scope.

(** * File systems *)

Lemma path_eqb_eq a b : path_eqb a b = true <-> a = b.
Proof.
  revert b. induction a as [|x a IH]; intros [|y b]; cbn; split; intro H; try congruence; try discriminate.
  - apply andb_true_iff in H as [H1 H2]. apply comp_eqb_eq in H1. apply IH in H2. congruence.
  - injection H as -> ->. apply andb_true_iff. split; [now apply comp_eqb_eq | now apply IH].
Qed.
Lemma path_eqb_refl a : path_eqb a a = true.
Proof. now apply path_eqb_eq. Qed.
Lemma path_eqb_neq a b : path_eqb a b = false <-> a <> b.
Proof. rewrite <- path_eqb_eq. destruct (path_eqb a b); split; congruence. Qed.

Lemma fs_get_in fs : wf_fs fs -> forall p n, fs_get p fs = Some n <-> In (p, n) fs.
Proof.
  induction fs as [|[q m] fs IH]; intros W p n; cbn; [split; [discriminate|tauto]|].
  unfold wf_fs in W. cbn in W. inversion_clear W as [|? ? W1 W2]. destruct (path_eqb p q) eqn:E.
  - apply path_eqb_eq in E. subst q. split; [intro H; injection H as ->; auto|].
    intros [H|H]; [congruence|]. destruct W1. apply in_map_iff. exists (p, n). auto.
  - apply path_eqb_neq in E. rewrite IH by auto. split; auto. intros [H|H]; congruence.
Qed.
Lemma fs_get_some fs p n : fs_get p fs = Some n -> In (p, n) fs.
Proof.
  induction fs as [|[q m] fs IH]; cbn; [discriminate|]. destruct (path_eqb p q) eqn:E; auto.
  apply path_eqb_eq in E. intro H. left. congruence.
Qed.
Lemma fs_get_set p n fs q : fs_get q (fs_set p n fs) = if path_eqb q p then Some n else fs_get q fs.
Proof.
  induction fs as [|[r m] fs IH]; cbn; [reflexivity|]. destruct (path_eqb p r) eqn:E.
  - apply path_eqb_eq in E. subst r. cbn. destruct (path_eqb q p); reflexivity.
  - cbn. rewrite IH. destruct (path_eqb q r) eqn:E'; auto. destruct (path_eqb q p) eqn:E2; auto.
    apply path_eqb_eq in E', E2. subst. now rewrite path_eqb_refl in E.
Qed.
Lemma fs_get_del p fs q : fs_get q (fs_del p fs) = if path_eqb q p then None else fs_get q fs.
Proof.
  unfold fs_del. induction fs as [|[r m] fs IH]; cbn; [destruct (path_eqb q p); reflexivity|].
  destruct (path_eqb p r) eqn:E; cbn.
  - rewrite IH. apply path_eqb_eq in E. subst r. destruct (path_eqb q p); reflexivity.
  - rewrite IH. destruct (path_eqb q r) eqn:E'; auto. destruct (path_eqb q p) eqn:E2; auto.
    apply path_eqb_eq in E', E2. subst. now rewrite path_eqb_refl in E.
Qed.
Lemma fs_set_keys p n fs : map fst (fs_set p n fs) = map fst fs \/
  (~ In p (map fst fs) /\ map fst (fs_set p n fs) = map fst fs ++ [p]).
Proof.
  induction fs as [|[r m] fs IH]; cbn; [right; auto|]. destruct (path_eqb p r) eqn:E.
  - apply path_eqb_eq in E. subst. left. reflexivity.
  - apply path_eqb_neq in E. cbn. destruct IH as [IH|[IH1 IH2]]; [left; congruence|].
    right. split; [intros [H|H]; congruence|]. cbn. congruence.
Qed.
Lemma wf_set p n fs : wf_fs fs -> wf_fs (fs_set p n fs).
Proof.
  unfold wf_fs. intro W. destruct (fs_set_keys p n fs) as [->|[N ->]]; auto.
  apply (Permutation_NoDup (Permutation_cons_append (map fst fs) p)). constructor; auto.
Qed.
Lemma nodup_filter_map {A B} (f : A -> B) (g : A -> bool) l : NoDup (map f l) -> NoDup (map f (filter g l)).
Proof.
  induction l as [|x l IH]; cbn; auto. intro N. inversion_clear N as [|? ? N1 N2].
  destruct (g x); cbn; auto. constructor; auto. intro H. apply N1. apply in_map_iff in H as (y & E & I).
  apply in_map_iff. exists y. split; auto. apply filter_In in I. tauto.
Qed.
Lemma wf_del p fs : wf_fs fs -> wf_fs (fs_del p fs).
Proof. apply nodup_filter_map. Qed.
Lemma wf_act fs a : wf_fs fs -> wf_fs (act fs a).
Proof. destruct a; cbn; auto using wf_set, wf_del. Qed.
Lemma act_all_app fs a b : act_all fs (a ++ b) = act_all (act_all fs a) b.
Proof. unfold act_all. apply fold_left_app. Qed.
Lemma wf_act_all l : forall fs, wf_fs fs -> wf_fs (act_all fs l).
Proof. induction l as [|a l IH]; intros fs W; cbn; auto. apply IH, wf_act, W. Qed.
Lemma contents_in fs d : In d (contents fs) <-> exists p, file_at fs p d.
Proof.
  unfold contents, file_at. rewrite in_flat_map. split.
  - intros ([p [|x]] & I & J); cbn in J; [tauto|]. destruct J as [->|[]]. eauto.
  - intros [p I]. exists (p, NdFile d). cbn. auto.
Qed.
Lemma file_at_get fs p d : wf_fs fs -> (file_at fs p d <-> fs_get p fs = Some (NdFile d)).
Proof. intro W. symmetry. now apply fs_get_in. Qed.

Lemma starts_below p root : path_starts_with p root = true <-> below root p.
Proof.
  unfold path_starts_with, below. split.
  - destruct (strip_prefix p root) as [r|] eqn:E; [|discriminate]. intros _. exists r. now apply strip_prefix_spec.
  - intros [r ->]. replace (strip_prefix (root ++ r) root) with (Some r); auto. symmetry. now apply strip_prefix_spec.
Qed.

Lemma abs_in fs p n : abs_fs fs -> In (p, n) fs -> absolute p.
Proof. intros A I. unfold abs_fs in A. rewrite Forall_forall in A. exact (A _ I). Qed.
Lemma abs_set p n fs : absolute p -> abs_fs fs -> abs_fs (fs_set p n fs).
Proof.
  intros P A. induction A as [|[q m] fs H A IH]; cbn; [repeat constructor; auto|].
  destruct (path_eqb p q); constructor; auto.
Qed.
Lemma abs_del p fs : abs_fs fs -> abs_fs (fs_del p fs).
Proof.
  intro A. apply Forall_forall. intros x I. apply filter_In in I as [I _]. unfold abs_fs in A. rewrite Forall_forall in A. auto.
Qed.
Lemma abs_firstn p k : absolute p -> absolute (firstn (S k) p).
Proof. intros [names ->]. exists (firstn k names). cbn. now rewrite firstn_map. Qed.
Lemma abs_parent p q : absolute p -> path_parent p = Some q -> absolute q.
Proof.
  intros [names ->]. destruct names as [|n names] using rev_ind; [discriminate|].
  rewrite map_app. change (CRoot :: map CNorm names ++ map CNorm [n]) with ((CRoot :: map CNorm names) ++ [CNorm n]).
  rewrite path_parent_snoc by discriminate. intro H. injection H as <-. now exists names.
Qed.
Lemma abs_proper p : absolute p -> p <> [] /\ Forall (fun c => is_cur c = false) p.
Proof. intros [names ->]. split; [discriminate|]. constructor; auto. induction names; constructor; auto. Qed.

(** * Runs *)

Lemma bind_acts {A B} (m : io A) (k : A -> io B) fs :
  bind m k fs =
  match snd (m fs) with
  | IOk a => (fst (m fs) ++ fst (k a (act_all fs (fst (m fs)))), snd (k a (act_all fs (fst (m fs)))))
  | IErr => (fst (m fs), IErr)
  | IPanic => (fst (m fs), IPanic)
  end.
Proof.
  unfold bind. destruct (m fs) as [l [a| |]]; cbn; auto.
  destruct (k a (act_all fs l)) as [l' r] eqn:E. unfold act_all in *. rewrite E. reflexivity.
Qed.
Lemma ignore_acts {A} (m : io A) fs : fst (ignore m fs) = fst (m fs).
Proof. unfold ignore. destruct (m fs) as [l [a| |]]; reflexivity. Qed.
Lemma ignore_ok {A} (m : io A) fs : snd (m fs) <> IPanic -> snd (ignore m fs) = IOk tt.
Proof. unfold ignore. destruct (m fs) as [l [a| |]]; cbn; congruence. Qed.

Lemma states_in fs l s : In s (states fs l) <-> exists l1 l2, l = l1 ++ l2 /\ s = act_all fs l1.
Proof.
  unfold states. rewrite in_map_iff. split.
  - intros (k & <- & I). exists (firstn k l), (skipn k l). now rewrite firstn_skipn.
  - intros (l1 & l2 & -> & ->). exists (length l1). split.
    + now rewrite firstn_app, Nat.sub_diag, firstn_all, firstn_O, app_nil_r.
    + apply in_seq. rewrite app_length. lia.
Qed.
Lemma states_left fs a b s : In s (states fs a) -> In s (states fs (a ++ b)).
Proof. rewrite !states_in. intros (l1 & l2 & -> & ->). exists l1, (l2 ++ b). now rewrite app_assoc. Qed.
Lemma states_right fs a b s : In s (states (act_all fs a) b) -> In s (states fs (a ++ b)).
Proof.
  rewrite !states_in. intros (l1 & l2 & -> & ->). exists (a ++ l1), l2. rewrite app_assoc. split; auto.
  symmetry. apply act_all_app.
Qed.

Section Invariants.
Variable utf8 : str -> bool.
Variable sha : str -> str.
Variable parse : str -> pres.
Variable ser : page -> str.
Variable de : str -> option page.
Variable cache : path.

Local Notation load := (load_wiki_file utf8 sha parse ser de).

(** The only files written below the cache directory are cache files of texts in [T]. *)
Definition safe (T : list str) (a : action) : Prop :=
  match a with
  | AWrite p d => absolute p /\ ~ below cache p \/
      exists text pg, In text T /\ parse text = POk pg /\ p = cache_path cache (sha text) /\ d = ser pg
  | AMkdir p => absolute p
  | _ => True
  end.
Hypothesis Abs : absolute cache.
Definition safe_io {A} (m : io A) : Prop :=
  forall fs T, abs_fs fs -> (forall s, In s (states fs (fst (m fs))) -> incl (contents s) T) -> Forall (safe T) (fst (m fs)).

Lemma cache_path_snoc name : cache_path cache name = cache ++ [CNorm name].
Proof.
  destruct Abs as [names E]. unfold cache_path, path_join. cbn [has_root]. rewrite E. cbn. f_equal.
  unfold drop_cur. rewrite filter_app. cbn. f_equal. apply forallb_filter_id. clear. induction names; auto.
Qed.
Lemma cache_path_abs name : absolute (cache_path cache name).
Proof. rewrite cache_path_snoc. destruct Abs as [names ->]. exists (names ++ [name]). now rewrite map_app. Qed.
Lemma cache_below name : below cache (cache_path cache name).
Proof. rewrite cache_path_snoc. now exists [CNorm name]. Qed.
Lemma cache_path_inj a b : cache_path cache a = cache_path cache b -> a = b.
Proof. rewrite !cache_path_snoc. intro H. apply app_inv_head in H. congruence. Qed.
Lemma abs_act T fs a : safe T a -> abs_fs fs -> abs_fs (act fs a).
Proof.
  destruct a as [p d|p|p|x]; cbn [act safe]; auto using abs_del, abs_set.
  intros [[A _]|(text & pg & _ & _ & -> & _)] F; apply abs_set; auto. apply cache_path_abs.
Qed.
Lemma abs_all T l : forall fs, Forall (safe T) l -> abs_fs fs -> abs_fs (act_all fs l).
Proof.
  induction l as [|a l IH]; intros fs F A; [exact A|]. inversion_clear F. apply IH; auto. eapply abs_act; eauto.
Qed.

Lemma safe_ret {A} (a : A) : safe_io (ret a).
Proof. intros fs T _ _. constructor. Qed.
Lemma safe_fail {A} : safe_io (@fail A).
Proof. intros fs T _ _. constructor. Qed.
Lemma safe_bind {A B} (m : io A) (k : A -> io B) : safe_io m -> (forall a, safe_io (k a)) -> safe_io (bind m k).
Proof.
  intros M K fs T Af H. rewrite bind_acts in *. destruct (snd (m fs)) as [a| |]; cbn [fst] in *.
  - assert (F : Forall (safe T) (fst (m fs))). { apply M; auto. intros s I. apply H. now apply states_left. }
    apply Forall_app. split; auto. apply K; [eapply abs_all; eauto|]. intros s I. apply H. now apply states_right.
  - now apply M.
  - now apply M.
Qed.
Lemma safe_ignore {A} (m : io A) : safe_io m -> safe_io (ignore m).
Proof. intros M fs T Af H. rewrite ignore_acts in *. now apply M. Qed.
Lemma safe_each {A} (f : A -> io unit) l : (forall x, safe_io (f x)) -> safe_io (each_io f l).
Proof. intro H. induction l as [|x l IH]; cbn; [apply safe_ret|]. apply safe_bind; auto. Qed.
Lemma safe_fold {A S} (f : S -> A -> io S) l : (forall s x, safe_io (f s x)) -> forall s, safe_io (fold_io f l s).
Proof. intro H. induction l as [|x l IH]; intro s; cbn; [apply safe_ret|]. apply safe_bind; auto. Qed.
Lemma safe_fold_in {A S} (f : S -> A -> io S) l : (forall s x, In x l -> safe_io (f s x)) -> forall s, safe_io (fold_io f l s).
Proof.
  induction l as [|x l IH]; intros H s; cbn; [apply safe_ret|]. apply safe_bind; [apply H; now left|].
  intro a. apply IH. intros b y I. apply H. now right.
Qed.
Lemma walk_abs fs root p : abs_fs fs -> In p (walk fs root) -> absolute p.
Proof.
  intros A I. unfold walk in I. apply in_map_iff in I as ([q n] & <- & I). apply filter_In in I as [I _]. eapply abs_in; eauto.
Qed.
Lemma safe_quiet {A} (m : io A) : (forall fs, fst (m fs) = []) -> safe_io m.
Proof. intros H fs T _ _. rewrite H. constructor. Qed.
Lemma safe_del p : safe_io (remove_file p).
Proof. intros fs T _ _. unfold remove_file. destruct (is_file fs p); repeat constructor. Qed.
Lemma safe_each_in {A} (f : A -> io unit) l : (forall x, In x l -> safe_io (f x)) -> safe_io (each_io f l).
Proof.
  induction l as [|x l IH]; intro H; cbn; [apply safe_ret|]. apply safe_bind; [apply H; now left|].
  intros _. apply IH. intros y I. apply H. now right.
Qed.
Lemma safe_mkdirs p : absolute p -> safe_io (create_dir_all p).
Proof.
  intro P. apply safe_each_in. intros q I fs T _ _. destruct (is_dir fs q); [constructor|].
  destruct (fs_get q fs); constructor; [|constructor]. cbn.
  unfold prefixes in I. apply in_map_iff in I as (k & <- & I). apply in_seq in I.
  destruct k as [|k]; [lia|]. now apply abs_firstn.
Qed.
Lemma safe_cached nc sum : safe_io (cached_page de cache nc sum).
Proof.
  intros fs T A H. unfold cached_page in *. destruct nc; [constructor|].
  destruct (fs_get (cache_path cache sum) fs) as [n|]; [|constructor].
  destruct (match n with NdFile d => de d | NdDir => None end); [constructor|].
  assert (S : safe_io (_ <- ignore (remove_file (cache_path cache sum)); @ret (option page) None)).
  { apply safe_bind; [apply safe_ignore, safe_del | intros; apply safe_ret]. }
  exact (S fs T A H).
Qed.

Lemma read_spec p fs : read_to_string utf8 p fs =
  match fs_get p fs with
  | Some (NdFile d) => if utf8 d then ([], IOk d) else ([], IErr)
  | _ => ([], IErr)
  end.
Proof.
  unfold read_to_string, bind, read_bytes. destruct (fs_get p fs) as [[|d]|]; auto.
  cbn. destruct (utf8 d); reflexivity.
Qed.

Lemma safe_load p nc : safe_io (load p cache nc).
Proof.
  intros fs T A H. unfold load_wiki_file in *. rewrite bind_acts in *. rewrite read_spec in *.
  destruct (fs_get p fs) as [[|text]|] eqn:E; try constructor.
  destruct (utf8 text); [|constructor]. cbn [fst snd app] in *.
  assert (I : In text T).
  { apply (H fs); [apply states_in; exists []; eexists; split; reflexivity|].
    apply contents_in. exists p. now apply fs_get_some. }
  revert H. change (act_all fs []) with fs. revert fs A E I. clear - Abs. intros fs A _ I H.
  assert (S : forall r, Forall (safe T) (fst ((match r with
    | Some pg => ret (WikiFile p (sha text) pg)
    | None => match parse text with
              | POk pg => _ <- ignore (write_file (cache_path cache (sha text)) (ser pg)) ; ret (WikiFile p (sha text) pg)
              | PErr => fail
              | PPanic => fun _ => ([], IPanic)
              end
    end) (act_all fs (fst (cached_page de cache nc (sha text) fs)))))).
  { intros [pg|]; [constructor|]. destruct (parse text) as [pg| |] eqn:Ep; try constructor.
    rewrite bind_acts. rewrite ignore_acts.
    assert (W : forall s, Forall (safe T) (fst (write_file (cache_path cache (sha text)) (ser pg) s))).
    { intro s. unfold write_file. destruct (is_dir s _); [constructor|].
      destruct (path_parent _) as [q|]; [|constructor]. destruct (is_dir s q); [|constructor].
      cbn [fst]. constructor; [|constructor]. cbn. right. exists text, pg. auto. }
    destruct (snd (ignore _ _)); cbn [fst ret]; rewrite ?app_nil_r; apply W. }
  rewrite bind_acts in *.
  assert (C : Forall (safe T) (fst (cached_page de cache nc (sha text) fs))).
  { apply safe_cached; auto. intros s Is. apply H. destruct (snd (cached_page de cache nc (sha text) fs)); cbn [fst]; auto.
    now apply states_left. }
  destruct (snd (cached_page de cache nc (sha text) fs)) as [r| |]; cbn [fst]; auto.
  apply Forall_app. split; auto.
Qed.

Lemma safe_load_wiki nc a x : safe_io (load_wiki utf8 sha parse ser de cache nc a x).
Proof.
  intros fs. apply safe_fold. intros s p. apply safe_bind; [apply safe_load|]. intro. apply safe_ret.
Qed.
Lemma safe_prune sums p : safe_io (prune_one utf8 sums p).
Proof.
  unfold prune_one. destruct (file_name p); [|apply safe_ret].
  destruct (_ || _); [apply safe_ignore, safe_del | apply safe_ret].
Qed.
Lemma safe_load_ast wikis include nc np : safe_io (load_ast utf8 sha parse ser de wikis include cache nc np).
Proof.
  unfold load_ast. apply safe_bind; [destruct nc; [apply safe_ret | now apply safe_mkdirs]|]. intros _.
  apply safe_bind; [apply safe_fold; intros; apply safe_load_wiki|]. intro a.
  apply safe_bind; [|intro; apply safe_ret]. destruct (np || nc); [apply safe_ret|].
  intro fs. apply safe_each. intro. apply safe_prune.
Qed.

(** * The cache *)

(** Whatever can be read from a cache file is the page of a text in [T]. *)
Definition sound (T : list str) (fs : fsys) : Prop :=
  forall name d pg, fs_get (cache_path cache name) fs = Some (NdFile d) -> de d = Some pg ->
    exists text, In text T /\ sha text = name /\ parse text = POk pg.

Lemma sound_more T T' fs : incl T T' -> sound T fs -> sound T' fs.
Proof. intros I H name d pg E D. destruct (H name d pg E D) as (t & A & B). eauto. Qed.
Lemma sound_dir T fs p : sound T fs -> sound T (fs_set p NdDir fs).
Proof.
  intros H name d pg E D. rewrite fs_get_set in E. destruct (path_eqb _ _); [discriminate|]. eapply H; eauto.
Qed.
Lemma sound_del T fs p : sound T fs -> sound T (fs_del p fs).
Proof.
  intros H name d pg E D. rewrite fs_get_del in E. destruct (path_eqb _ _); [discriminate|]. eapply H; eauto.
Qed.

Hypothesis Back : reads_back parse ser de.

Lemma sound_act T fs a : safe T a -> sound T fs -> sound T (act fs a).
Proof.
  destruct a as [p d|p|p|x]; cbn [act]; auto using sound_dir, sound_del.
  intros [[_ N]|(text & pg & I & P & -> & ->)] H name x y E D; rewrite fs_get_set in E.
  { destruct (path_eqb (cache_path cache name) p) eqn:Q; [|eapply H; eauto].
    apply path_eqb_eq in Q. subst p. destruct N. apply cache_below. }
  destruct (path_eqb (cache_path cache name) (cache_path cache (sha text))) eqn:Q; [|eapply H; eauto].
  injection E as <-. apply path_eqb_eq in Q. apply cache_path_inj in Q. subst name.
  exists text. split; auto. split; auto.
  rewrite <- (firstn_all (ser pg)) in D. apply (Back _ _ _ _ P) in D. congruence.
Qed.
Lemma sound_all T l : forall fs, Forall (safe T) l -> sound T fs -> sound T (act_all fs l).
Proof.
  induction l as [|a l IH]; intros fs F H; cbn; auto. inversion_clear F. apply IH; auto. now apply sound_act.
Qed.
Lemma sound_part T fs p d j : safe T (AWrite p d) -> sound T fs -> sound T (act fs (AWrite p (firstn j d))).
Proof.
  intros [[_ N]|(text & pg & I & P & -> & ->)] H name x y E D; cbn [act] in E; rewrite fs_get_set in E.
  { destruct (path_eqb (cache_path cache name) p) eqn:Q; [|eapply H; eauto].
    apply path_eqb_eq in Q. subst p. destruct N. apply cache_below. }
  destruct (path_eqb (cache_path cache name) (cache_path cache (sha text))) eqn:Q; [|eapply H; eauto].
  injection E as <-. apply path_eqb_eq in Q. apply cache_path_inj in Q. subst name.
  exists text. split; auto. split; auto. apply (Back _ _ _ _ P) in D. congruence.
Qed.
Lemma sound_crash T l k j fs : Forall (safe T) l -> sound T fs -> sound T (act_all fs (crashed k j l)).
Proof.
  intros F H. unfold crashed. rewrite act_all_app.
  assert (H1 : sound T (act_all fs (firstn k l))).
  { apply sound_all; auto. apply Forall_forall. intros x I. rewrite Forall_forall in F. apply F.
    rewrite <- (firstn_skipn k l). apply in_or_app. now left. }
  destruct (nth_error l k) as [[p d|p|p|x]|] eqn:E; auto.
  apply sound_part; auto. apply nth_error_In in E. rewrite Forall_forall in F. now apply F.
Qed.

(** * Histories *)
Variable html : list wiki -> option nat -> path -> page -> ires str.
Variable home : path.
Variable css : str.
Variable format : page -> option str.
Variable canonicalize : fsys -> path -> option path.
Local Notation runs := (program_run utf8 sha parse ser de html home css format canonicalize cache).

Lemma safe_write p d : absolute p -> ~ below cache p -> safe_io (write_file p d).
Proof.
  intros A N fs T _ _. unfold write_file. destruct (is_dir fs p); [constructor|].
  destruct (path_parent p) as [q|]; [|constructor]. destruct (is_dir fs q); [|constructor].
  constructor; [now left|constructor].
Qed.
Lemma safe_load_file a p nc : safe_io (load_file utf8 sha parse ser de a p cache nc).
Proof.
  unfold load_file. apply safe_bind; [apply safe_load|]. intro f.
  destruct (find_file_by_path _ p); [apply safe_ret | apply safe_fail].
Qed.
Lemma safe_convert_file wikis i a p nc stdout : absolute p ->
  outputs_outside cache (default_wiki home) -> Forall (outputs_outside cache) wikis ->
  safe_io (convert_file utf8 sha parse ser de html home wikis i a p cache nc stdout).
Proof.
  intros Ap Hd Hw. unfold convert_file. apply safe_bind.
  { destruct (find_file_by_path a p); [apply safe_ret | apply safe_load_file]. }
  intro af. apply safe_bind; [now apply safe_quiet|]. intro text. apply safe_bind; [|intro; apply safe_ret].
  destruct stdout; [intros fs T _ _; repeat constructor|].
  set (w := match find_wiki_index_by_path _ p with Some _ => _ | None => _ end).
  assert (W : outputs_outside cache w).
  { unfold w. destruct (find_wiki_index_by_path _ p) as [k|]; auto.
    destruct (nth_error wikis k) eqn:E; auto. apply nth_error_In in E. rewrite Forall_forall in Hw. auto. }
  destruct (make_output_path w p (bs "html")) as [out|] eqn:E; [|now apply safe_quiet].
  destruct (proj1 W p out Ap E) as [Ao No].
  apply safe_bind; [destruct (path_parent out) eqn:P; [apply safe_mkdirs; eapply abs_parent; eauto | apply safe_ret]|].
  intros _. now apply safe_write.
Qed.
Lemma safe_convert opt stdout with_css config vim :
  o_cache opt = cache -> outputs_outside cache (default_wiki home) ->
  Forall (outputs_outside cache) config -> (forall l, vim = Some l -> Forall (outputs_outside cache) l) ->
  safe_io (run_convert utf8 sha parse ser de html home css opt stdout with_css config vim).
Proof.
  intros Hc Hd Hw Hv fs. unfold run_convert.
  destruct (load_html_config _ home opt config vim [] fs) as [ws|] eqn:E; [|intros T _ _; constructor].
  assert (W : Forall (outputs_outside cache) ws).
  { unfold load_html_config in E. cbn [extra_wikis] in E. injection E as <-.
    apply Forall_forall. intros w I. apply in_map_iff in I as ([n x] & <- & I). apply filter_In in I as [I _].
    apply in_combine_r in I. cbn. rewrite app_nil_r in I.
    assert (C : In x config \/ exists l, vim = Some l /\ In x l).
    { destruct vim as [l|]; [|left; destruct config; [auto|destruct (o_merge opt); auto]].
      assert (In x (l ++ config) \/ In x config) as [J|J].
      { destruct config; [auto|destruct (o_merge opt); auto]. }
      - apply in_app_or in J as [J|J]; eauto.
      - auto. }
    destruct C as [C|(l & -> & C)]; [rewrite Forall_forall in Hw; auto|].
    specialize (Hv l eq_refl). rewrite Forall_forall in Hv. auto. }
  revert fs E. intros fs _. clear Hv Hw. revert fs.
  change (safe_io (a <- load_ast utf8 sha parse ser de ws (o_include opt) (o_cache opt) (o_no_cache opt) (o_no_prune opt) ;
       _ <- convert_wikis utf8 sha parse ser de html home css opt stdout with_css ws a ; ret tt)).
  rewrite Hc. apply safe_bind; [apply safe_load_ast|]. intro a. apply safe_bind; [|intro; apply safe_ret].
  unfold convert_wikis.
  assert (G : forall l, incl (map snd l) ws -> forall a, safe_io (fold_io (fun a (x : nat * wiki) =>
      a <- convert_path utf8 sha parse ser de html home ws (o_cache opt) (o_no_cache opt) stdout (w_ext (snd x)) a (w_path (snd x)) ;
      _ <- (if negb stdout && with_css
            then write_file (path_join (w_html (snd x)) [CNorm (bs "style.css")]) css else ret tt) ;
      ret a) l a)).
  { induction l as [|x l IH]; intros I b; cbn; [apply safe_ret|]. apply safe_bind; [|intro; apply IH; intros y J; apply I; now right].
    apply safe_bind.
    - intros fs T A. unfold convert_path. revert T A. rewrite Hc.
      intros T A. apply safe_fold_in; auto. intros s p Ip. apply safe_convert_file; auto.
      apply filter_In in Ip as [Ip _]. eapply walk_abs; eauto.
    - intro b'. apply safe_bind; [|intro; apply safe_ret]. destruct (_ && _); [|apply safe_ret].
      rewrite Forall_forall in W. destruct (W (snd x)) as (_ & W1 & W2); [apply I; now left|]. now apply safe_write. }
  apply G. intros x J. apply in_map_iff in J as ([n y] & <- & J). apply filter_In in J as [J _].
  apply in_combine_r in J. exact J.
Qed.
Lemma format_no_mkdir inline exts paths fs p :
  ~ In (AMkdir p) (fst (format_run utf8 parse format canonicalize inline exts paths fs)).
Proof.
  assert (F : forall q s, ~ In (AMkdir p) (fst (format_file utf8 parse format inline q s))).
  { intros q s. unfold format_file. rewrite bind_acts, read_spec. destruct (fs_get q s) as [[|text]|]; cbn; auto.
    destruct (utf8 text); cbn; auto. destruct (parse text) as [pg| |]; cbn; auto. destruct (format pg) as [o|]; cbn; auto.
    destruct inline; cbn; [|intros [X|[]]; discriminate]. unfold write_file. destruct (is_dir s q); cbn; auto.
    destruct (path_parent q) as [r|]; cbn; auto. destruct (is_dir s r); cbn; auto. intros [X|[]]. discriminate. }
  assert (G : forall (A : Type) (f : A -> io unit) l, (forall x s, ~ In (AMkdir p) (fst (f x s))) ->
    forall s, ~ In (AMkdir p) (fst (each_io f l s))).
  { intros A f l H. induction l as [|x l IH]; intro s; cbn; auto. rewrite bind_acts.
    destruct (snd (f x s)); cbn [fst]; auto. intro I. apply in_app_or in I as [I|I]; [eapply H | eapply IH]; exact I. }
  unfold format_run. apply G. intros a s. destruct (canonicalize s a) as [q|]; cbn; auto.
  destruct (is_file s q); auto. apply G. intros r s'. destruct (extension r); cbn; auto. destruct (_ && _); cbn; auto.
Qed.
Lemma only_writes_format inline exts paths fs T :
  (forall p d, In (AWrite p d) (fst (format_run utf8 parse format canonicalize inline exts paths fs)) -> absolute p /\ ~ below cache p) ->
  Forall (safe T) (fst (format_run utf8 parse format canonicalize inline exts paths fs)).
Proof. intro H. apply Forall_forall. intros [p d|p|p|x] I; cbn; auto.
  - left. eapply H. exact I.
  - exfalso. eapply format_no_mkdir. exact I.
Qed.

Lemma run_safe fs l T : abs_fs fs -> runs fs l -> (forall s, In s (states fs l) -> incl (contents s) T) -> Forall (safe T) l.
Proof.
  intros Af R. destruct R; intro Hs.
  - now apply safe_load.
  - now apply safe_load_ast.
  - now apply safe_convert.
  - now apply only_writes_format.
Qed.

Lemma abs_crash T l k j fs : Forall (safe T) l -> abs_fs fs -> abs_fs (act_all fs (crashed k j l)).
Proof.
  intros F A. unfold crashed. rewrite act_all_app.
  assert (A1 : abs_fs (act_all fs (firstn k l))).
  { eapply abs_all; [|exact A]. apply Forall_forall. intros x I. rewrite Forall_forall in F. apply F.
    rewrite <- (firstn_skipn k l). apply in_or_app. now left. }
  destruct (nth_error l k) as [[p d|p|p|x]|] eqn:E; auto.
  apply nth_error_In in E. rewrite Forall_forall in F. specialize (F _ E). cbn. apply abs_set; auto.
  destruct F as [[B _]|(text & pg & _ & _ & -> & _)]; auto. apply cache_path_abs.
Qed.
Lemma history_sound fs ts : history cache runs fs ts -> wf_fs fs /\ abs_fs fs /\ sound ts fs /\ incl (contents fs) ts.
Proof.
  induction 1 as [fs W A N|fs ts p d H (W & A & S & I) Ap N|fs ts p H (W & A & S & I) N|fs ts p H (W & A & S & I) Ap N
                 |fs ts l H (W & A & S & I) R|fs ts l k j H (W & A & S & I) R].
  - split; auto. split; auto. split; [|apply incl_refl]. intros name d pg E D. apply fs_get_some in E.
    destruct (N _ _ E). apply cache_below.
  - split; [now apply wf_set|]. split; [now apply abs_set|]. split; [|apply incl_appr, incl_refl].
    apply (sound_more ts); [apply incl_appl, incl_refl|].
    intros name x pg E D. rewrite fs_get_set in E. destruct (path_eqb _ _) eqn:Q; [|eapply S; eauto].
    apply path_eqb_eq in Q. subst p. destruct N. apply cache_below.
  - split; [now apply wf_del|]. split; [now apply abs_del|]. split; [now apply sound_del|].
    intros x J. apply I. apply contents_in in J as [q J]. apply contents_in. exists q.
    apply filter_In in J. exact (proj1 J).
  - split; [now apply wf_set|]. split; [now apply abs_set|]. split; [now apply sound_dir|].
    intros x J. apply I. apply contents_in in J as [q J]. apply contents_in. exists q.
    apply file_at_get in J; [|now apply wf_set]. rewrite fs_get_set in J.
    destruct (path_eqb q p); [discriminate|]. now apply file_at_get.
  - assert (F : Forall (safe (ts ++ flat_map contents (states fs l))) l).
    { apply (run_safe fs); auto. intros s Is x J. apply in_or_app. right. apply in_flat_map. eauto. }
    split; [now apply wf_act_all|]. split; [eapply abs_all; eauto|]. split.
    + apply sound_all; auto. apply (sound_more ts); [apply incl_appl, incl_refl | auto].
    + intros x J. apply in_or_app. right. apply in_flat_map. exists (act_all fs l). split; auto.
      apply states_in. exists l, []. now rewrite app_nil_r.
  - set (more := contents (act_all fs (crashed k j l))).
    assert (F : Forall (safe (ts ++ flat_map contents (states fs l) ++ more)) l).
    { apply (run_safe fs); auto. intros s Is x J. apply in_or_app. right. apply in_or_app. left. apply in_flat_map. eauto. }
    split; [now apply wf_act_all|]. split; [eapply abs_crash; eauto|]. split.
    + apply sound_crash; auto. apply (sound_more ts); [apply incl_appl, incl_refl | auto].
    + apply incl_appr, incl_appr, incl_refl.
Qed.

(** Loading a file returns what parsing its present text gives. *)
Lemma load_result p nc fs ts : wf_fs fs -> incl (contents fs) ts ->
  nc = true \/ (forall d, de d = None) \/ (sound ts fs /\ collision_free sha ts) ->
  fresh utf8 sha parse fs p (snd (load p cache nc fs)).
Proof.
  intros W I S. unfold load_wiki_file. rewrite bind_acts, read_spec.
  destruct (fs_get p fs) as [[|text]|] eqn:E.
  - right. right. split; auto. intros t A. apply file_at_get in A; auto. congruence.
  - assert (A : file_at fs p text) by now apply file_at_get.
    destruct (utf8 text) eqn:U; cbn [fst snd app]; [left|right; left; eauto].
    exists text. split; auto. split; auto. cbn [act_all fold_left].
    rewrite bind_acts.
    assert (Fresh : forall s, snd ((match parse text with
      | POk pg => _ <- ignore (write_file (cache_path cache (sha text)) (ser pg)) ; ret (WikiFile p (sha text) pg)
      | PErr => fail
      | PPanic => fun _ => ([], IPanic)
      end) s) = match parse text with POk pg => IOk (WikiFile p (sha text) pg) | PErr => IErr | PPanic => IPanic end).
    { intro s. destruct (parse text) as [pg| |]; auto. rewrite bind_acts.
      rewrite ignore_ok; auto. unfold write_file. destruct (is_dir s _); cbn; [discriminate|].
      destruct (path_parent _) as [q|]; [destruct (is_dir s q)|]; discriminate. }
    unfold cached_page. destruct nc; cbn [snd fst]; [apply Fresh|].
    destruct (fs_get (cache_path cache (sha text)) fs) as [n|] eqn:G; cbn [snd fst]; [|apply Fresh].
    destruct n as [|d].
    + rewrite bind_acts. unfold remove_file, is_file, ignore. rewrite G. cbn [fst snd app ret]. apply Fresh.
    + destruct (de d) as [pg|] eqn:D; cbn [snd fst].
      * destruct S as [S|[S|[S Cf]]]; [discriminate|rewrite S in D; discriminate|]. destruct (S _ _ _ G D) as (t & It & Es & Ep).
        assert (t = text) as ->. { apply Cf; auto. apply I. apply contents_in. eauto. }
        rewrite Ep. reflexivity.
      * rewrite bind_acts. unfold remove_file, is_file, ignore. rewrite G. cbn [fst snd app ret]. apply Fresh.
  - right. right. split; auto. intros t A. apply file_at_get in A; auto. congruence.
Qed.
End Invariants.
