(** Loading touches the cache only. *)
From Verif Require Import Base ModelSpan ModelAst ModelPath ModelCli ModelExit SpecCli SpecExit ProofBase ProofPath ProofCli.
From Coq Require Import Lia.
Local Open Scope nat_scope.

Section Keeps.
Variable P : action -> Prop.
Definition keeps {A} (m : io A) : Prop := forall fs, Forall P (fst (m fs)).
Lemma keeps_none {A} (m : io A) : (forall fs, fst (m fs) = []) -> keeps m.
Proof. intros H fs. rewrite H. constructor. Qed.
Lemma keeps_bind {A B} (m : io A) (k : A -> io B) : keeps m -> (forall a, keeps (k a)) -> keeps (bind m k).
Proof.
  intros M K fs. unfold bind. specialize (M fs). destruct (m fs) as [l [a| |]]; cbn [fst] in *; auto.
  specialize (K a (act_all fs l)). destruct (k a (act_all fs l)). cbn [fst] in *. now apply Forall_app.
Qed.
Lemma keeps_ignore {A} (m : io A) : keeps m -> keeps (ignore m).
Proof. intros M fs. specialize (M fs). unfold ignore. destruct (m fs) as [l [a| |]]; exact M. Qed.
Lemma keeps_each {A} (f : A -> io unit) l : (forall x, In x l -> keeps (f x)) -> keeps (each_io f l).
Proof.
  induction l as [|x l IH]; intro H; cbn; [now apply keeps_none|]. apply keeps_bind; [apply H; now left|].
  intros _. apply IH. intros y I. apply H. now right.
Qed.
Lemma keeps_fold {A S} (f : S -> A -> io S) l : (forall s x, keeps (f s x)) -> forall s, keeps (fold_io f l s).
Proof. intro H. induction l as [|x l IH]; intro s; cbn; [now apply keeps_none|]. apply keeps_bind; auto. Qed.
End Keeps.

Section Load.
Variable utf8 : str -> bool.
Variable sha : str -> str.
Variable parse : str -> pres.
Variable ser : page -> str.
Variable de : str -> option page.
Variable cache : path.
Hypothesis Abs : absolute cache.

Lemma keeps_load p nc : keeps (on_cache cache) (load_wiki_file utf8 sha parse ser de p cache nc).
Proof.
  unfold load_wiki_file. apply keeps_bind.
  - apply keeps_none. intro fs. unfold read_to_string, bind, read_bytes. destruct (fs_get p fs) as [[|d]|]; auto. now destruct (utf8 d).
  - intro text. cbv zeta. apply keeps_bind.
    + intro fs. unfold cached_page. destruct nc; [constructor|]. destruct (fs_get _ fs) as [n|]; [|constructor].
      destruct (match n with NdDir => None | NdFile d => de d end); [constructor|].
      revert fs. apply keeps_bind; [|intros _; now apply keeps_none]. apply keeps_ignore. intro fs. unfold remove_file.
      destruct (is_file fs _); repeat constructor. now apply cache_below.
    + intros [pg|]; [now apply keeps_none|]. destruct (parse text) as [pg| |]; try now apply keeps_none.
      apply keeps_bind; [|intros _; now apply keeps_none]. apply keeps_ignore. intro fs. unfold write_file.
      destruct (is_dir fs _); [constructor|]. destruct (path_parent _); [|constructor]. destruct (is_dir fs _); repeat constructor.
      now apply cache_below.
Qed.
Lemma keeps_mkdirs : keeps (on_cache cache) (create_dir_all cache).
Proof.
  apply keeps_each. intros q I fs. destruct (is_dir fs q); [constructor|]. destruct (fs_get q fs); repeat constructor.
  unfold prefixes in I. apply in_map_iff in I as (k & <- & I). exists (skipn k cache). symmetry. apply firstn_skipn.
Qed.
Lemma keeps_load_ast ws include nc np : keeps (on_cache cache) (load_ast utf8 sha parse ser de ws include cache nc np).
Proof.
  unfold load_ast. apply keeps_bind; [destruct nc; [now apply keeps_none|apply keeps_mkdirs]|]. intros _. apply keeps_bind.
  - apply keeps_fold. intros a x fs. unfold load_wiki. revert fs.
    assert (K : forall l a0, keeps (on_cache cache) (fold_io (fun a p => bind (load_wiki_file utf8 sha parse ser de p cache nc)
      (fun f => ret (push_file (fst x) f a))) l a0)).
    { intros l a0. apply keeps_fold. intros s y. apply keeps_bind; [apply keeps_load|]. intro f. now apply keeps_none. }
    intro fs. apply K.
  - intro a. apply keeps_bind; [|intros _; now apply keeps_none]. destruct (np || nc); [now apply keeps_none|]. intro fs.
    assert (K : forall l, (forall p, In p l -> below cache p) -> keeps (on_cache cache) (each_io (prune_one utf8 (ast_sums a)) l)).
    { intros l L. apply keeps_each. intros p I. unfold prune_one. destruct (file_name p) as [n|]; [|now apply keeps_none].
      destruct (negb (utf8 n) || _); [|now apply keeps_none]. apply keeps_ignore. intro s. unfold remove_file.
      destruct (is_file s p); repeat constructor. now apply L. }
    apply K. intros p I. unfold walk in I. apply in_map_iff in I as ([q n] & <- & I). apply filter_In in I as [_ I]. cbn [snd fst] in *.
    destruct n; [discriminate|]. now apply starts_below.
Qed.
End Load.

(** What is outside stays. *)
Lemma on_cache_rest cache l p : Forall (on_cache cache) l -> ~ below cache p -> ~ below p cache ->
  forall fs, fs_get p (act_all fs l) = fs_get p fs.
Proof.
  intros F N M. induction F as [|a l A F IH]; intro fs; [reflexivity|].
  change (act_all fs (a :: l)) with (act_all (act fs a) l). rewrite IH.
  destruct a as [q t|q|q|t]; cbn [act on_cache] in *; try reflexivity; [rewrite fs_get_set|rewrite fs_get_del|rewrite fs_get_set];
    destruct (path_eqb p q) eqn:E; try reflexivity; apply path_eqb_eq in E; subst; contradiction.
Qed.
Lemma extra_none canonicalize home fs paths : extra_wikis canonicalize home fs paths = None <-> exists p, In p paths /\ canonicalize fs p = None.
Proof.
  induction paths as [|p paths IH]; cbn [extra_wikis].
  - split; [discriminate|intros (p & [] & _)].
  - destruct (canonicalize fs p) as [q|] eqn:E; [|split; [intros _; exists p; split; [now left|exact E]|reflexivity]].
    cbv zeta. destruct (extra_wikis canonicalize home fs paths) as [l|] eqn:X.
    + split; [discriminate|]. intros (r & [<-|I] & N); [congruence|]. assert (Y : exists p, In p paths /\ canonicalize fs p = None) by eauto.
      apply IH in Y. discriminate.
    + split; [|reflexivity]. intros _. destruct (proj1 IH eq_refl) as (r & I & N). exists r. split; [now right|exact N].
Qed.
Lemma config_none canonicalize home opt c vim extra fs :
  load_html_config canonicalize home opt c vim extra fs = None <-> exists p, In p extra /\ canonicalize fs p = None.
Proof. rewrite <- (extra_none canonicalize home). unfold load_html_config. cbv zeta. destruct (extra_wikis canonicalize home fs extra); split; congruence. Qed.
Lemma bind_run {A B} (m : io A) (k : A -> io B) fs : bind m k fs =
  match m fs with
  | (l, IOk a) => let (l', r) := k a (act_all fs l) in (l ++ l', r)
  | (l, IErr) => (l, IErr)
  | (l, IPanic) => (l, IPanic)
  end.
Proof. reflexivity. Qed.
