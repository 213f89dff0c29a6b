(** Outputs of converting; formatting. *)
From Verif Require Import Base ModelSpan ModelAst ModelPath ModelCli SpecPath SpecCli ProofBase ProofPath ProofCli ProofCli2 ProofCli3.
Local Open Scope nat_scope.

Section Outputs.
Variable utf8 : str -> bool.
Variable sha : str -> str.
Variable parse : str -> pres.
Variable ser : page -> str.
Variable de : str -> option page.
Variable html : list wiki -> option nat -> path -> page -> ires str.
Variable home : path.
Variable css : str.
Variable cache : path.
Variable ws : list wiki.
Variable stdout with_css : bool.
Variable St : fsys -> Prop.
Variable T : list str.
Hypothesis Abs : absolute cache.
Hypothesis Back : reads_back parse ser de.
Hypothesis Hd : outputs_outside cache (default_wiki home).
Hypothesis Hw : Forall (outputs_outside cache) ws.
Local Notation load := (load_wiki_file utf8 sha parse ser de).
Local Notation allow := (allowed parse html home css cache ws stdout with_css St).
Local Notation pg_of := (page_of parse html ws St).

Definition spec {A} (m : io A) (P : A -> Prop) : Prop :=
  forall s, ok sha parse de cache T s ->
    (forall x, In x (states s (fst (m s))) -> St x /\ incl (contents x) T) ->
    Forall (fun a => allow a /\ safe sha parse ser cache T a) (fst (m s)) /\ forall a, snd (m s) = IOk a -> P a.

Lemma spec_ret {A} (a : A) (P : A -> Prop) : P a -> spec (ret a) P.
Proof. intros H s _ _. split; [constructor|]. cbn. intros b E. injection E as <-. exact H. Qed.
Lemma spec_bind {A B} (m : io A) (k : A -> io B) P Q : spec m P -> (forall a, P a -> spec (k a) Q) -> spec (bind m k) Q.
Proof.
  intros M K s O C. rewrite bind_acts in *.
  assert (C1 : forall x, In x (states s (fst (m s))) -> St x /\ incl (contents x) T).
  { intros x I. apply C. destruct (snd (m s)); cbn [fst]; auto. now apply states_left. }
  destruct (M s O C1) as [M1 M2]. destruct (snd (m s)) as [a| |]; cbn [fst snd] in *; try (split; [exact M1 | discriminate]).
  destruct (K a (M2 a eq_refl) (act_all s (fst (m s)))) as [K1 K2].
  - apply (ok_all sha parse ser de cache Abs Back T); auto. eapply Forall_impl; [|exact M1]. intros x X. apply X.
  - intros x I. apply C. now apply states_right.
  - split; auto. apply Forall_app. auto.
Qed.
Lemma spec_fold {A S} (f : S -> A -> io S) l (I : S -> Prop) : (forall s x, In x l -> I s -> spec (f s x) I) ->
  forall s, I s -> spec (fold_io f l s) I.
Proof.
  induction l as [|x l IH]; intros H s Hs; cbn; [now apply spec_ret|]. apply (spec_bind _ _ I).
  - apply H; auto. now left.
  - intros a Ha. apply IH; auto. intros b y J. apply H. now right.
Qed.
Lemma spec_each {A} (f : A -> io unit) l : (forall x, In x l -> spec (f x) (fun _ => True)) -> spec (each_io f l) (fun _ => True).
Proof.
  induction l as [|x l IH]; intro H; cbn; [now apply spec_ret|]. apply (spec_bind _ _ (fun _ => True)).
  - apply H. now left.
  - intros _ _. apply IH. intros y J. apply H. now right.
Qed.
Lemma spec_quiet {A} (m : io A) (P : A -> Prop) : (forall s, fst (m s) = []) -> (forall s a, snd (m s) = IOk a -> P a) -> spec m P.
Proof. intros H H' s _ _. rewrite H. split; [constructor|]. apply H'. Qed.
Lemma spec_weak {A} (m : io A) (P Q : A -> Prop) : (forall a, P a -> Q a) -> spec m P -> spec m Q.
Proof. intros H M s O C. destruct (M s O C) as [M1 M2]. split; auto. Qed.

Definition from (f : wiki_file) : Prop :=
  exists x t, St x /\ file_at x (wf_path f) t /\ parse t = POk (wf_data f).
Definition ast_from (a : ast) : Prop := forall w f, In w a -> In f (aw_files w) -> from f.

Lemma spec_load p nc : spec (load p cache nc) (fun f => wf_path f = p /\ from f).
Proof.
  intros s (W & Af & S & Cf) C.
  assert (C0 : St s /\ incl (contents s) T).
  { apply C. apply states_in. exists [], (fst (load p cache nc s)). auto. }
  split.
  - pose proof (safe_load utf8 sha parse ser de cache Abs p nc s T Af (fun x I => proj2 (C x I))) as F.
    pose proof (load_inside utf8 sha parse ser de cache Abs p nc s) as V.
    rewrite Forall_forall in F. apply Forall_forall. intros a I. split; [|now apply F].
    assert (O : outside cache a = false).
    { destruct (outside cache a) eqn:O; auto. exfalso.
      assert (X : In a (filter (outside cache) (fst (load p cache nc s)))) by (apply filter_In; auto).
      rewrite V in X. destruct X. }
    unfold outside in O. destruct a as [q d|q|q|t]; cbn [action_path] in O; try discriminate;
      apply negb_false_iff, starts_below in O; cbn; auto.
    exfalso. revert I. clear - Abs. unfold load_wiki_file. rewrite bind_acts, read_spec.
    destruct (fs_get p s) as [[|text]|]; auto. destruct (utf8 text); auto. cbn [fst snd app act_all fold_left].
    assert (N1 : ~ In (AMkdir q) (fst (cached_page de cache nc (sha text) s))).
    { unfold cached_page. destruct nc; auto. destruct (fs_get _ s) as [n|]; auto.
      destruct (match n with NdFile d => de d | NdDir => None end); auto.
      rewrite bind_acts. unfold remove_file, ignore. destruct (is_file s _); cbn; auto. intros [X|[]]. discriminate. }
    rewrite bind_acts. destruct (snd (cached_page de cache nc (sha text) s)) as [[pg|]| |]; cbn [fst]; auto; intro X;
      apply in_app_or in X as [X|X]; auto.
    destruct (parse text) as [pg| |]; auto. rewrite bind_acts, ignore_acts in X.
    assert (N2 : forall x, ~ In (AMkdir q) (fst (write_file (cache_path cache (sha text)) (ser pg) x))).
    { intro x. unfold write_file. destruct (is_dir x _); auto. destruct (path_parent _) as [r|]; auto.
      destruct (is_dir x r); auto. intros [Y|[]]. discriminate. }
    destruct (snd (ignore _ _)); cbn [fst ret] in X; rewrite ?app_nil_r in X; eapply N2; exact X.
  - intros f E.
    pose proof (load_result utf8 sha parse ser de cache p nc s T W (proj2 C0)) as R.
    assert (H : nc = true \/ (forall d, de d = None) \/ sound sha parse de cache T s /\ collision_free sha T) by tauto.
    specialize (R H). rewrite E in R.
    destruct R as [(t & A & U & R)|[(t & _ & _ & R)|[_ R]]]; try discriminate.
    destruct (parse t) as [pg| |] eqn:P; try discriminate. injection R as ->. cbn. split; auto.
    exists s, t. cbn. intuition.
Qed.

Lemma push_from i f a : from f -> ast_from a -> ast_from (push_file i f a).
Proof.
  intros Hf. revert i. induction a as [|w a IH]; intros [|i] Ha v g I J; cbn in I; try (now destruct I).
  - destruct I as [<-|I]; [|apply (Ha v g); auto; now right]. cbn in J. apply in_app_or in J as [J|[<-|[]]]; auto.
    apply (Ha w g); auto. now left.
  - destruct I as [<-|I]; [apply (Ha w g); auto; now left|].
    apply (IH i) with v; auto. intros v' g' I' J'. apply (Ha v' g'); auto. now right.
Qed.
Lemma spec_load_wiki nc a x : ast_from a -> spec (load_wiki utf8 sha parse ser de cache nc a x) ast_from.
Proof.
  intros Ha s. unfold load_wiki. apply spec_fold.
  - intros b p _ Hb. apply (spec_bind _ _ (fun f => wf_path f = p /\ from f)); [apply spec_load|].
    intros f [_ F]. apply spec_ret. now apply push_from.
  - intros v f I J. apply in_app_or in I as [I|[<-|[]]]; [now apply (Ha v f)|destruct J].
Qed.
Lemma spec_mkdirs p : absolute p -> (forall k, allow (AMkdir (firstn k p))) -> spec (create_dir_all p) (fun _ => True).
Proof.
  intros Ap N. apply spec_each. intros q I. apply prefixes_in in I as (k & B & ->). intros s _ _.
  assert (Ak : absolute (firstn k p)) by (destruct k as [|k]; [lia|now apply abs_firstn]).
  destruct (is_dir s _); [split; [constructor|auto]|]. destruct (fs_get _ s); (split; [|auto]); [constructor|].
  constructor; [|constructor]. split; [apply N|exact Ak].
Qed.
Lemma spec_prune sums l : Forall (SpecCli.below cache) l -> spec (each_io (prune_one utf8 sums) l) (fun _ => True).
Proof.
  intro F. apply spec_each. intros p I s _ _. split; [|auto]. unfold prune_one. destruct (file_name p); [|constructor].
  destruct (_ || _); [|constructor]. rewrite ignore_acts. unfold remove_file. destruct (is_file s p); [|constructor].
  constructor; [|constructor]. split; [|exact Logic.I]. cbn. rewrite Forall_forall in F. auto.
Qed.
Lemma spec_load_ast include nc np : spec (load_ast utf8 sha parse ser de ws include cache nc np) ast_from.
Proof.
  unfold load_ast. apply (spec_bind _ _ (fun _ => True)).
  { destruct nc; [now apply spec_ret|]. apply spec_mkdirs; [exact Abs|]. intro k. left. exists (skipn k cache). symmetry. apply firstn_skipn. }
  intros _ _. apply (spec_bind _ _ ast_from).
  { apply spec_fold; [|intros w f []]. intros a x _ Ha. now apply spec_load_wiki. }
  intros a Ha. apply (spec_bind _ _ (fun _ => True)); [|intros; now apply spec_ret].
  destruct (np || nc); [now apply spec_ret|]. intro s. apply spec_prune. apply walk_below.
Qed.

Lemma find_from a p f : ast_from a -> find_file_by_path a p = Some f -> wf_path f = p /\ from f.
Proof.
  intro Ha. induction a as [|w a IH]; cbn; [discriminate|].
  destruct (find (fun g => path_eqb (wf_path g) p) (aw_files w)) as [g|] eqn:E.
  - intro H. injection H as <-. apply find_some in E as [I E]. apply path_eqb_eq in E. split; auto.
    apply (Ha w g); auto. now left.
  - apply IH. intros v g I J. apply (Ha v g); auto. now right.
Qed.
Lemma add_from f a a' : from f -> ast_from a -> add_file f a = Some a' -> ast_from a'.
Proof.
  intros Hf. revert a'. induction a as [|w a IH]; intros a' Ha; cbn; [discriminate|].
  destruct (path_starts_with _ _).
  - intro H. injection H as <-. intros v g [<-|I] J.
    + cbn in J. apply in_app_or in J as [J|[<-|[]]]; auto. apply (Ha w g); auto. now left.
    + apply (Ha v g); auto. now right.
  - destruct (add_file f a) as [b|] eqn:E; [|discriminate]. intro H. injection H as <-.
    assert (Hb : ast_from b). { apply IH; auto. intros v g I J. apply (Ha v g); auto. now right. }
    intros v g [<-|I] J; [apply (Ha w g); auto; now left|]. now apply (Hb v g).
Qed.
Lemma spec_load_file a p nc : ast_from a -> spec (load_file utf8 sha parse ser de a p cache nc)
  (fun r => ast_from (fst r) /\ wf_path (snd r) = p /\ from (snd r)).
Proof.
  intro Ha. unfold load_file. apply (spec_bind _ _ (fun f => wf_path f = p /\ from f)); [apply spec_load|].
  intros f [_ Hf].
  match goal with |- spec (match find_file_by_path ?x p with _ => _ end) _ => set (a' := x) end.
  assert (Ha' : ast_from a').
  { unfold a'. destruct (add_file f a) as [b|] eqn:E; [eapply add_from; eauto|].
    intros v g I J. apply in_app_or in I as [I|[<-|[]]]; [now apply (Ha v g)|]. cbn in J. destruct J as [<-|[]]. exact Hf. }
  destruct (find_file_by_path a' p) as [g|] eqn:E.
  - apply spec_ret. cbn. split; auto. eapply find_from; eauto.
  - apply spec_quiet; auto. discriminate.
Qed.

Lemma prefix_below a b : prefix_of a b <-> SpecCli.below a b.
Proof. rewrite <- starts_with_iff. apply starts_below. Qed.
Lemma owner_of p w : w = match find_wiki_index_by_path (PathsConfig ws None []) p with
                   | Some i => match nth_error ws i with Some w => w | None => default_wiki home end
                   | None => default_wiki home
                   end -> owner home ws p w.
Proof.
  destruct (find_wiki_index_by_path (PathsConfig ws None []) p) as [i|] eqn:E.
  - destruct (find_wiki_some _ _ _ E) as (v & N & B & M). cbn in N, M. rewrite N. intros ->. left.
    split; [eapply nth_error_In; eauto|]. split; [now apply prefix_below|].
    intros u I X. exact (M u I (proj2 (prefix_below _ _) X)).
  - pose proof (find_wiki_none _ _ E) as X. cbn in X. intros ->. right. split; [|reflexivity].
    intros v I B. exact (X v I (proj2 (prefix_below _ _) B)).
Qed.

Lemma spec_write p d : absolute p -> ~ SpecCli.below cache p -> allow (AWrite p d) -> spec (write_file p d) (fun _ => True).
Proof.
  intros Ap N A s O C. split; [|auto].
  pose proof (safe_write sha parse ser cache p d Ap N s T (proj1 (proj2 O)) (fun x I => proj2 (C x I))) as F.
  unfold write_file in *. destruct (is_dir s p); [constructor|]. destruct (path_parent p); [|constructor].
  destruct (is_dir s _); [|constructor]. inversion_clear F. constructor; [auto|constructor].
Qed.

Lemma spec_convert_file a p nc : absolute p -> ast_from a ->
  spec (convert_file utf8 sha parse ser de html home ws (find_wiki_index_by_path (PathsConfig ws None []) p) a p cache nc stdout) ast_from.
Proof.
  intros Ap Ha. unfold convert_file.
  apply (spec_bind _ _ (fun r => ast_from (fst r) /\ wf_path (snd r) = p /\ from (snd r))).
  { destruct (find_file_by_path a p) as [f|] eqn:E; [|now apply spec_load_file].
    apply spec_ret. cbn. split; auto. eapply find_from; eauto. }
  intros [b f] (Hb & Hp & x & t & Sx & At & P). cbn [fst snd] in *.
  apply (spec_bind _ _ (fun text => html ws (find_wiki_index_by_path (PathsConfig ws None []) p) p (wf_data f) = IOk text)).
  { apply spec_quiet; auto. }
  intros text H.
  assert (Pg : pg_of p text). { exists x, t, (wf_data f). eexists. rewrite Hp in At. repeat split; eauto. }
  apply (spec_bind _ _ (fun _ => True)); [|intros; now apply spec_ret].
  destruct stdout eqn:So.
  - intros s _ _. split; [|auto]. constructor; [|constructor]. split; [|exact Logic.I]. cbn. split; auto. eauto.
  - set (w := match find_wiki_index_by_path _ p with Some _ => _ | None => _ end).
    assert (Ow : owner home ws p w) by now apply owner_of.
    assert (W : outputs_outside cache w).
    { destruct Ow as [(I & _)|(_ & ->)]; auto. rewrite Forall_forall in Hw. auto. }
    destruct (make_output_path w p (bs "html")) as [o|] eqn:E.
    + destruct (proj1 W p o Ap E) as [Ao No]. apply (spec_bind _ _ (fun _ => True)).
      * destruct (path_parent o) eqn:Po; [|now apply spec_ret]. apply spec_mkdirs; [eapply abs_parent; eauto|]. intro k. rewrite So. right. reflexivity.
      * intros _ _. apply spec_write; auto. cbn. right. split; auto. right. exists p, w. auto.
    + apply spec_quiet; auto.
Qed.
Lemma spec_convert_wikis opt a : o_cache opt = cache -> ast_from a ->
  spec (convert_wikis utf8 sha parse ser de html home css opt stdout with_css ws a) ast_from.
Proof.
  intros Hc Ha. unfold convert_wikis. rewrite Hc. apply spec_fold; auto. intros b [i w] I Hb.
  apply filter_In in I as [I _]. apply enumerate_in, nth_error_In in I. cbn [fst snd].
  apply (spec_bind _ _ ast_from).
  - intros s O. unfold convert_path. apply spec_fold; auto. intros c p Ip Hc'. apply spec_convert_file; auto.
    apply filter_In in Ip as [Ip _]. destruct O as (_ & As & _). eapply walk_abs; eauto.
  - intros c Hc'. apply (spec_bind _ _ (fun _ => True)); [|intros; now apply spec_ret].
    destruct (negb stdout && with_css) eqn:E; [|now apply spec_ret].
    apply andb_true_iff in E as [E1 E2]. apply negb_true_iff in E1. rewrite Forall_forall in Hw. destruct (Hw w I) as (_ & H1 & H2). apply spec_write; auto.
    cbn. right. split; auto. left. split; auto. split; auto. eauto.
Qed.
Lemma spec_run opt config vim fs : o_cache opt = cache ->
  load_html_config (fun _ _ => None) home opt config vim [] fs = Some ws ->
  ok sha parse de cache T fs ->
  (forall x, In x (states fs (fst (run_convert utf8 sha parse ser de html home css opt stdout with_css config vim fs))) ->
     St x /\ incl (contents x) T) ->
  Forall allow (fst (run_convert utf8 sha parse ser de html home css opt stdout with_css config vim fs)).
Proof.
  intros Hc L O C. unfold run_convert in *. rewrite L in *.
  assert (R : spec (a <- load_ast utf8 sha parse ser de ws (o_include opt) (o_cache opt) (o_no_cache opt) (o_no_prune opt);
       _ <- convert_wikis utf8 sha parse ser de html home css opt stdout with_css ws a; ret tt) (fun _ => True)).
  { rewrite Hc. apply (spec_bind _ _ ast_from); [apply spec_load_ast|]. intros a Ha.
    apply (spec_bind _ _ ast_from); [now apply spec_convert_wikis|]. intros; now apply spec_ret. }
  destruct (R fs O C) as [R1 _]. eapply Forall_impl; [|exact R1]. intros a X. apply X.
Qed.
End Outputs.

(** * Formatting *)
Section Format.
Variable utf8 : str -> bool.
Variable parse : str -> pres.
Variable format : page -> option str.
Variable canonicalize : fsys -> path -> option path.
Local Notation run := (format_run utf8 parse format canonicalize).
Local Notation fmt := (formatted utf8 parse format).

Lemma format_file_prints p s a : In a (fst (format_file utf8 parse format false p s)) -> exists t, a = APrint t.
Proof.
  unfold format_file. rewrite bind_acts, read_spec. destruct (fs_get p s) as [[|text]|]; cbn; try tauto.
  destruct (utf8 text); cbn; try tauto. destruct (parse text) as [pg| |]; cbn; try tauto.
  destruct (format pg); cbn; [|tauto]. intros [<-|[]]. eauto.
Qed.
Definition prints {A} (m : io A) : Prop := forall s a, In a (fst (m s)) -> exists t, a = APrint t.
Lemma prints_bind {A B} (m : io A) (k : A -> io B) : prints m -> (forall a, prints (k a)) -> prints (bind m k).
Proof.
  intros M K s a. rewrite bind_acts. destruct (snd (m s)); cbn [fst]; try apply M.
  intro I. apply in_app_or in I as [I|I]; [now apply M in I | now apply K in I].
Qed.
Lemma prints_each {A} (f : A -> io unit) l : (forall x, prints (f x)) -> prints (each_io f l).
Proof. intro H. induction l as [|x l IH]; cbn; [intros s a []|]. apply prints_bind; auto. Qed.
Lemma format_prints exts paths : prints (run false exts paths).
Proof.
  unfold format_run. apply prints_each. intros p s a. destruct (canonicalize s p) as [q|]; [|intros []].
  destruct (is_file s q); [apply format_file_prints|].
  revert s a. intros s. generalize (walk s q). intro l. revert s.
  change (prints (each_io (fun r => match extension r with
    | Some e => if utf8 e && existsb (str_eqb e) exts then format_file utf8 parse format false r else ret tt
    | None => ret tt end) l)).
  apply prints_each. intro r. destruct (extension r) as [e|]; [|intros s a []].
  destruct (_ && _); [intros s a; apply format_file_prints | intros s a []].
Qed.

(** Inline formatting. *)
Definition shape (s : fsys) : list (path * bool) := map (fun e => (fst e, match snd e with NdDir => true | _ => false end)) s.
Lemma shape_set s p t d : file_at s p t -> wf_fs s -> shape (fs_set p (NdFile d) s) = shape s.
Proof.
  intros A W. unfold file_at in A. induction s as [|[q n] s IH]; [destruct A|]. cbn.
  unfold wf_fs in W. cbn in W. inversion_clear W as [|? ? W1 W2]. destruct (path_eqb p q) eqn:E.
  - apply path_eqb_eq in E. subst q. destruct A as [A|A].
    + injection A as ->. reflexivity.
    + destruct W1. apply in_map_iff. exists (p, NdFile t). auto.
  - destruct A as [A|A]; [injection A as -> ->; rewrite path_eqb_refl in E; discriminate|].
    cbn. f_equal. now apply IH.
Qed.
Lemma ref_trans sel a b c : reformatted utf8 parse format sel a b -> reformatted utf8 parse format sel b c -> reformatted utf8 parse format sel a c.
Proof. induction 1; auto. intro. econstructor; eauto. Qed.
Lemma ref_shape sel a b : reformatted utf8 parse format sel a b -> wf_fs a -> wf_fs b /\ shape b = shape a.
Proof.
  induction 1 as [|fs fs' p text out S A F R IH]; auto. intro W. destruct IH as [W' Sh]; [now apply wf_set|].
  split; auto. rewrite Sh. eapply shape_set; eauto.
Qed.
Hypothesis Irr : texts_irrelevant canonicalize.
Lemma ref_canon sel a b q : reformatted utf8 parse format sel a b -> canonicalize b q = canonicalize a q.
Proof. induction 1 as [|fs fs' p text out S A F R IH]; auto. rewrite IH. eapply Irr. exact A. Qed.

Lemma shape_walk a b root : shape a = shape b -> walk a root = walk b root.
Proof.
  revert b. induction a as [|[p n] a IH]; intros [|[q m] b] H; try discriminate; auto. injection H as -> E H.
  unfold walk in *. cbn. specialize (IH b H). destruct n, m; try discriminate; auto.
  destruct (path_starts_with q root); cbn; congruence.
Qed.
Lemma shape_file a b p : shape a = shape b -> is_file a p = is_file b p.
Proof.
  unfold is_file. revert b. induction a as [|[q n] a IH]; intros [|[r m] b] H; try discriminate; auto. injection H as -> E H.
  cbn. destruct (path_eqb p r); [destruct n, m; congruence|auto].
Qed.

(** One file. *)
Lemma format_one p s : wf_fs s ->
  (fst (format_file utf8 parse format true p s) = [] /\ snd (format_file utf8 parse format true p s) <> IOk tt) \/
  exists text out, file_at s p text /\ fmt text out /\
    fst (format_file utf8 parse format true p s) = [AWrite p out] /\ snd (format_file utf8 parse format true p s) = IOk tt.
Proof.
  intro W. unfold format_file. rewrite bind_acts, read_spec. destruct (fs_get p s) as [[|text]|] eqn:E; try (left; split; [reflexivity|discriminate]).
  destruct (utf8 text) eqn:U; [|left; split; [reflexivity|discriminate]]. cbn [fst snd app act_all fold_left].
  destruct (parse text) as [pg| |] eqn:P; try (left; split; [reflexivity|discriminate]).
  destruct (format pg) as [out|] eqn:F; [|left; split; [reflexivity|discriminate]].
  unfold write_file. destruct (is_dir s p); [left; split; [reflexivity|discriminate]|].
  destruct (path_parent p) as [q|]; [|left; split; [reflexivity|discriminate]].
  destruct (is_dir s q); [|left; split; [reflexivity|discriminate]].
  right. exists text, out. split; [now apply file_at_get|]. split; [|auto]. split; auto. eauto.
Qed.

Definition good (sel : path -> Prop) (m : io unit) (s : fsys) : Prop :=
  forall k, reformatted utf8 parse format sel s (act_all s (firstn k (fst (m s)))).
Lemma good_end sel m s : good sel m s -> reformatted utf8 parse format sel s (act_all s (fst (m s))).
Proof. intro G. specialize (G (length (fst (m s)))). now rewrite firstn_all in G. Qed.
Lemma good_none sel (m : io unit) s : fst (m s) = [] -> good sel m s.
Proof. intros E k. rewrite E. destruct k; apply ref_done. Qed.
Lemma good_one (sel : path -> Prop) p s : wf_fs s -> sel p -> good sel (format_file utf8 parse format true p) s.
Proof.
  intros W S k. destruct (format_one p s W) as [[-> _]|(text & out & A & F & -> & _)]; [destruct k; apply ref_done|].
  destruct k as [|k]; [apply ref_done|]. cbn. rewrite firstn_nil. econstructor; eauto. apply ref_done.
Qed.
Lemma good_bind sel m k s : good sel m s -> good sel k (act_all s (fst (m s))) -> good sel (_ <- m ; k) s.
Proof.
  intros M K k0. rewrite bind_acts. destruct (snd (m s)); cbn [fst]; auto. rewrite firstn_app, act_all_app.
  destruct (k0 - length (fst (m s))) as [|j] eqn:E; [apply M|].
  rewrite (firstn_all2 (fst (m s))) by lia. eapply ref_trans; [now apply good_end | apply K].
Qed.

(** Invariants along a loop. *)
Lemma good_each {A} sel (f : A -> io unit) l s0 : wf_fs s0 ->
  (forall x s, In x l -> reformatted utf8 parse format sel s0 s -> good sel (f x) s) ->
  forall s, reformatted utf8 parse format sel s0 s -> good sel (each_io f l) s.
Proof.
  intro W. induction l as [|x l IH]; intros H s R; cbn; [now apply good_none|]. apply good_bind.
  - apply H; auto. now left.
  - apply IH; [intros y s' I; apply H; now right|]. eapply ref_trans; eauto. apply good_end. apply H; auto. now left.
Qed.

(** What [format_run] does for one path. *)
Definition fstep exts (p : path) : io unit := fun fs =>
  match canonicalize fs p with
  | None => ([], IErr)
  | Some q =>
      if is_file fs q then format_file utf8 parse format true q fs
      else each_io (fun r =>
             match extension r with
             | Some e => if utf8 e && existsb (str_eqb e) exts then format_file utf8 parse format true r else ret tt
             | None => ret tt
             end) (walk fs q) fs
  end.
Lemma format_step exts paths fs a s : wf_fs fs -> In a paths ->
  reformatted utf8 parse format (asked canonicalize fs exts paths) fs s ->
  good (asked canonicalize fs exts paths) (fstep exts a) s.
Proof.
  intros W I R. destruct (ref_shape _ _ _ R W) as [Ws Sh]. unfold fstep.
  intro k. rewrite (ref_canon _ _ _ a R). revert k.
  destruct (canonicalize fs a) as [q|] eqn:C; [|intro k; rewrite firstn_nil; apply ref_done].
  destruct (is_file s q) eqn:F.
  - apply good_one; auto. exists a, q. split; auto. split; auto. left. split; auto.
    rewrite (shape_file s fs q Sh) in F. unfold is_file in F. destruct (fs_get q fs) as [[|d]|] eqn:G; try discriminate.
    exists d. now apply file_at_get.
  - rewrite (shape_walk s fs q Sh). rewrite (shape_file s fs q Sh) in F.
    match goal with |- context [each_io ?f ?l s] => change (good (asked canonicalize fs exts paths) (each_io f l) s) end.
    apply (good_each _ _ _ fs); auto. intros r s' J R'. destruct (ref_shape _ _ _ R' W) as [Ws' _].
    destruct (extension r) as [e|] eqn:X; [|now apply good_none].
    destruct (utf8 e && existsb (str_eqb e) exts) eqn:Y; [|now apply good_none].
    apply good_one; auto. exists a, q. split; auto. split; auto. right. split.
    { intros d A. apply file_at_get in A; auto. unfold is_file in F. rewrite A in F. discriminate. }
    apply walk_file in J as [_ B]; auto. split; auto. exists e. split; auto.
    apply andb_true_iff in Y as [_ Y]. apply existsb_exists in Y as (z & Iz & Z). apply str_eqb_eq in Z. now subst.
Qed.
Lemma format_good exts paths fs : wf_fs fs -> good (asked canonicalize fs exts paths) (run true exts paths) fs.
Proof.
  intro W. change (run true exts paths) with (each_io (fstep exts) paths).
  apply (good_each _ _ _ fs); auto; [|apply ref_done]. intros a s I R. now apply format_step.
Qed.

(** After success every asked file was formatted. *)
Lemma ref_file sel a b p t : reformatted utf8 parse format sel a b -> wf_fs a -> file_at a p t ->
  file_at b p t \/ exists t', file_at b p t' /\ formats fmt t t'.
Proof.
  intro R. revert t. induction R as [|fs fs' q text out S A F R IH]; intros t W At; auto.
  destruct (path_eqb p q) eqn:E.
  - apply path_eqb_eq in E. subst q. assert (t = text) as ->.
    { apply file_at_get in A, At; auto. congruence. }
    right. destruct (IH out) as [B|(t' & B & M)].
    + now apply wf_set.
    + apply file_at_get; [now apply wf_set|]. rewrite fs_get_set, path_eqb_refl. reflexivity.
    + exists out. split; auto. now constructor.
    + exists t'. split; auto. clear - F M. induction M.
      * eapply formats_more; eauto. now constructor.
      * eapply formats_more; eauto.
  - apply IH; [now apply wf_set|]. apply file_at_get; [now apply wf_set|]. rewrite fs_get_set, E. now apply file_at_get.
Qed.
Lemma fmt_after t t' t'' : formats fmt t t' -> formats fmt t' t'' -> formats fmt t t''.
Proof.
  intros H H'. revert H. induction H' as [a b F|a b c F IH G]; intro H; [exact (formats_more _ _ _ _ H F)|].
  exact (formats_more _ _ _ _ (IH H) G).
Qed.

Definition done_at (s0 s : fsys) (p : path) : Prop := forall t, file_at s0 p t -> exists t', file_at s p t' /\ formats fmt t t'.
Lemma done_later sel s0 s s' p : wf_fs s -> reformatted utf8 parse format sel s s' -> done_at s0 s p -> done_at s0 s' p.
Proof.
  intros W R D t A. destruct (D t A) as (t1 & A1 & F1). destruct (ref_file _ _ _ _ _ R W A1) as [B|(t2 & B & F2)]; eauto.
  exists t2. split; auto. eapply fmt_after; eauto.
Qed.
Lemma each_done {A} sel (f : A -> io unit) (Q : A -> path -> Prop) l s0 : wf_fs s0 ->
  (forall x s, In x l -> reformatted utf8 parse format sel s0 s -> good sel (f x) s /\
     (snd (f x s) = IOk tt -> forall p, Q x p -> done_at s0 (act_all s (fst (f x s))) p)) ->
  forall s, reformatted utf8 parse format sel s0 s -> snd (each_io f l s) = IOk tt ->
  forall x p, In x l -> Q x p -> done_at s0 (act_all s (fst (each_io f l s))) p.
Proof.
  intro W. induction l as [|x l IH]; intros H s R E y p I Hq; [destruct I|]. cbn in *. rewrite bind_acts in *.
  destruct (H x s (or_introl eq_refl) R) as [G D].
  destruct (snd (f x s)) as [[]| |]; try discriminate. cbn [fst snd] in *. rewrite act_all_app.
  assert (R1 : reformatted utf8 parse format sel s0 (act_all s (fst (f x s)))) by (eapply ref_trans; eauto; now apply good_end).
  destruct I as [->|I].
  - eapply done_later; [|apply good_end, (good_each sel f l s0 W)|now apply D]; eauto.
    + now apply (ref_shape _ _ _ R1).
    + intros z s' J R'. now apply H; [right|].
  - exact (IH (fun z s' J => H z s' (or_intror J)) _ R1 E y p I Hq).
Qed.
Lemma one_done sel s0 s p : wf_fs s0 -> reformatted utf8 parse format sel s0 s ->
  snd (format_file utf8 parse format true p s) = IOk tt -> done_at s0 (act_all s (fst (format_file utf8 parse format true p s))) p.
Proof.
  intros W R E t A. destruct (ref_shape _ _ _ R W) as [Ws _].
  destruct (format_one p s Ws) as [[_ N]|(text & out & At & F & -> & _)]; [congruence|].
  exists out. split.
  - cbn. apply file_at_get; [now apply wf_set|]. now rewrite fs_get_set, path_eqb_refl.
  - destruct (ref_file _ _ _ _ _ R W A) as [B|(t' & B & M)].
    + assert (t = text) as ->. { apply file_at_get in At, B; auto. congruence. } now constructor.
    + assert (t' = text) as ->. { apply file_at_get in At, B; auto. congruence. } eapply formats_more; eauto.
Qed.

Lemma format_done exts paths fs p : wf_fs fs -> Forall (fun e => utf8 e = true) exts ->
  snd (run true exts paths fs) = IOk tt -> asked canonicalize fs exts paths p ->
  done_at fs (act_all fs (fst (run true exts paths fs))) p.
Proof.
  intros W U E (a & q & I & C & H).
  set (sel := asked canonicalize fs exts paths).
  unfold format_run in *.
  eapply (each_done sel _ (fun a p => exists q, canonicalize fs a = Some q /\
    (((exists d, file_at fs q d) /\ p = q) \/
     ((forall d, ~ file_at fs q d) /\ SpecCli.below q p /\ exists e, extension p = Some e /\ In e exts))) paths fs W);
    [|apply ref_done|exact E|exact I|eauto].
  clear - W U Irr. intros a s I R. destruct (ref_shape _ _ _ R W) as [Ws Sh]. split.
  { (* as in [format_good] *)
    intro k. rewrite (ref_canon _ _ _ a R). revert k.
  destruct (canonicalize fs a) as [q|] eqn:C; [|intro k; rewrite firstn_nil; apply ref_done].
    destruct (is_file s q) eqn:F.
    - apply good_one; auto. exists a, q. split; auto. split; auto. left. split; auto.
      rewrite (shape_file s fs q Sh) in F. unfold is_file in F. destruct (fs_get q fs) as [[|d]|] eqn:G; try discriminate.
      exists d. now apply file_at_get.
    - rewrite (shape_walk s fs q Sh). rewrite (shape_file s fs q Sh) in F.
      match goal with |- context [each_io ?f ?l s] => change (good sel (each_io f l) s) end.
      apply (good_each _ _ _ fs); auto. intros r s' J R'. destruct (ref_shape _ _ _ R' W) as [Ws' _].
      destruct (extension r) as [e|] eqn:X; [|now apply good_none].
      destruct (utf8 e && existsb (str_eqb e) exts) eqn:Y; [|now apply good_none].
      apply good_one; auto. exists a, q. split; auto. split; auto. right. split.
      { intros d A. apply file_at_get in A; auto. unfold is_file in F. rewrite A in F. discriminate. }
      apply walk_file in J as [_ B]; auto. split; auto. exists e. split; auto.
      apply andb_true_iff in Y as [_ Y]. apply existsb_exists in Y as (z & Iz & Z). apply str_eqb_eq in Z. now subst. }
  rewrite (ref_canon _ _ _ a R). intros E p (q & C & H). rewrite C in *.
  destruct H as [[[d A] ->]|(N & B & e & X & Ie)].
  - assert (F : is_file s q = true).
    { rewrite (shape_file s fs q Sh). unfold is_file. apply file_at_get in A; auto. now rewrite A. }
    rewrite F in *. eapply one_done; eauto.
  - assert (F : is_file s q = false).
    { rewrite (shape_file s fs q Sh). unfold is_file. destruct (fs_get q fs) as [[|d]|] eqn:G; auto.
      destruct (N d). now apply file_at_get. }
    rewrite F in *. rewrite (shape_walk s fs q Sh) in *.
    intros t A.
    assert (J : In p (walk fs q)) by (apply walk_file; eauto).
    revert t A. change (done_at fs (act_all s (fst (each_io (fun r =>
               match extension r with
               | Some e => if utf8 e && existsb (str_eqb e) exts then format_file utf8 parse format true r else ret tt
               | None => ret tt
               end) (walk fs q) s))) p).
    eapply (each_done (fun _ => True) _ (fun r p => r = p /\ extension p = Some e) (walk fs q) fs W); [| |exact E|exact J|auto].
    + intros r s' J' R'. destruct (ref_shape _ _ _ R' W) as [Ws' _]. split.
      * destruct (extension r); [|now apply good_none]. destruct (_ && _); [|now apply good_none]. now apply good_one.
      * intros Er p' [-> Xe]. rewrite Xe in *.
        assert (Y : utf8 e && existsb (str_eqb e) exts = true).
        { apply andb_true_iff. split; [rewrite Forall_forall in U; now apply U|]. apply existsb_exists. exists e. split; auto. now apply str_eqb_eq. }
        rewrite Y in *. eapply one_done; eauto.
    + clear - R. induction R; [apply ref_done|]. econstructor; eauto.
Qed.
Lemma each_ran {A} sel (f : A -> io unit) l s0 :
  (forall x s, In x l -> reformatted utf8 parse format sel s0 s -> good sel (f x) s) ->
  forall s, reformatted utf8 parse format sel s0 s -> snd (each_io f l s) = IOk tt ->
  forall x, In x l -> exists s', reformatted utf8 parse format sel s0 s' /\ snd (f x s') = IOk tt.
Proof.
  induction l as [|x l IH]; intros H s R E y I; [destruct I|]. cbn in E. rewrite bind_acts in E.
  pose proof (H x s (or_introl eq_refl) R) as G.
  destruct (snd (f x s)) as [[]| |] eqn:X; try discriminate. cbn [snd] in E.
  destruct I as [<-|I]; [eauto|].
  eapply IH; [|eapply ref_trans; [exact R|exact (good_end _ _ _ G)]|exact E|exact I].
  intros z s' J. apply H. now right.
Qed.
(** Success means that every path was there. *)
Lemma format_found exts paths fs a : wf_fs fs -> snd (run true exts paths fs) = IOk tt -> In a paths ->
  exists q, canonicalize fs a = Some q.
Proof.
  intros W E I. change (run true exts paths) with (each_io (fstep exts) paths) in E.
  destruct (each_ran (asked canonicalize fs exts paths) (fstep exts) paths fs (fun x s J R => format_step exts paths fs x s W J R)
              fs (ref_done _ _ _ _ fs) E a I) as (s & R & X).
  unfold fstep in X. rewrite (ref_canon _ _ _ a R) in X. destruct (canonicalize fs a) as [q|]; [eauto|discriminate].
Qed.
Lemma format_crash exts paths fs k j : wf_fs fs ->
  exists p0, forall p t, p <> p0 -> file_at fs p t ->
    let fs' := act_all fs (crashed k j (fst (run true exts paths fs))) in
    file_at fs' p t \/ exists t', file_at fs' p t' /\ formats fmt t t'.
Proof.
  intro W. pose proof (format_good exts paths fs W k) as R. destruct (ref_shape _ _ _ R W) as [W1 _]. unfold crashed.
  destruct (nth_error (fst (run true exts paths fs)) k) as [[q d|q|q|x]|];
    [exists q; intros p t N A|exists []; intros p t N A..]; cbv zeta; rewrite act_all_app; cbn [act_all fold_left act];
    try exact (ref_file _ _ _ _ _ R W A).
  assert (X : forall y, file_at (act_all fs (firstn k (fst (run true exts paths fs)))) p y ->
    file_at (fs_set q (NdFile (firstn j d)) (act_all fs (firstn k (fst (run true exts paths fs))))) p y).
  { intros y B. apply file_at_get; [now apply wf_set|]. rewrite fs_get_set. apply path_eqb_neq in N. rewrite N.
    now apply file_at_get. }
  destruct (ref_file _ _ _ _ _ R W A) as [B|(t' & B & F)]; [left; now apply X|]. right. exists t'. auto.
Qed.
End Format.
