(** The command line program (C54-C57, C71-C74). *)
From Verif Require Import Base ModelSpan ModelComb ModelAst ModelLink ModelInline ModelBlock ModelOracle ModelPath ModelVimwiki ModelCli
  SpecCli ProofBase ProofPath ProofCli ProofCli2 ProofCli3 ProofCli4 ProofCli5.
Local Open Scope nat_scope.

(** ** A small world for the examples *)

Local Notation nm s := (CNorm (bs s)).
Local Notation below := SpecCli.below.
Definition the_cache : path := [CRoot; nm "cache"].
Definition the_home : path := [CRoot; nm "home"].
Definition all_utf8 (_ : str) : bool := true.
(** The text is its own checksum; pages are titles. *)
Definition the_sha (t : str) : str := t.
Definition the_page (t : str) : page := [Loc (BPlaceholder (PTitle t)) (Region 0 0 0)].
Definition the_parse (t : str) : pres :=
  match t with [] => PErr | x :: _ => if beqb x x21 then PPanic else POk (the_page t) end.
Definition the_ser (pg : page) : str :=
  match pg with
  | [Loc (BPlaceholder (PTitle t)) (Region 0 0 0)] => if existsb (fun b => beqb b b_nl) t then [] else t ++ [b_nl]
  | _ => []
  end.
Definition the_de (d : str) : option page :=
  match rev d with
  | x :: t => if beqb x b_nl then Some (the_page (rev t)) else None
  | [] => None
  end.
Definition the_html (ws : list wiki) (i : option nat) (p : path) (pg : page) : ires str := IOk (bs "<p>" ++ the_ser pg).
Definition the_css : str := bs "body {}".
Definition a_wiki (name : option str) (dir : str) : wiki :=
  Wiki [CRoot; CNorm dir] [CRoot; CNorm (dir ++ bs "_html")] name (bs "style.css") (bs "wiki") [].
Definition two_wikis : list wiki := [a_wiki None (bs "w0"); a_wiki None (bs "w1")].
Definition the_fs : fsys :=
  [([CRoot; nm "cache"], NdDir); ([CRoot; nm "w0"], NdDir); ([CRoot; nm "w1"], NdDir);
   ([CRoot; nm "w0"; nm "a.wiki"], NdFile (bs "alpha")); ([CRoot; nm "w1"; nm "b.wiki"], NdFile (bs "beta"));
   ([CRoot; nm "w1"; nm "c.txt"], NdFile (bs "gamma"))].
Definition the_opt (nc np : bool) (include : list index_or_name) : copt := COpt the_cache nc np false include.
Local Notation world_convert := (run_convert all_utf8 the_sha the_parse the_ser the_de the_html the_home the_css).

Lemma the_back : reads_back the_parse the_ser the_de.
Proof.
  intros text pg j x _. unfold the_ser.
  destruct pg as [|[v r] tl]; [destruct j; discriminate|].
  destruct v as [| | | | | | |q| |]; try (destruct j; discriminate).
  destruct q as [t| | | |]; try (destruct j; discriminate). destruct r as [[|] [|] [|]]; try (destruct j; discriminate).
  destruct tl; [|destruct j; discriminate].
  destruct (existsb _ t) eqn:N; [destruct j; discriminate|].
  intro H. rewrite firstn_app in H. destruct (j - length t) as [|k] eqn:E.
  - rewrite firstn_O, app_nil_r in H. unfold the_de in H. destruct (rev (firstn j t)) as [|y r] eqn:R; [discriminate|].
    destruct (beqb y b_nl) eqn:B; [|discriminate]. exfalso.
    assert (I : In y t).
    { rewrite <- (firstn_skipn j t). apply in_or_app. left. apply in_rev. rewrite R. now left. }
    assert (X : existsb (fun b => beqb b b_nl) t = true) by (apply existsb_exists; eauto). congruence.
  - rewrite firstn_all2 in H by lia. cbn in H. rewrite firstn_nil in H. unfold the_de in H. rewrite rev_app_distr in H. cbn in H.
    rewrite rev_involutive in H. injection H as <-. reflexivity.
Qed.
Lemma the_cache_abs : absolute the_cache.
Proof. now exists [bs "cache"]. Qed.

Lemma the_fs_abs : abs_fs the_fs.
Proof.
  repeat apply Forall_cons; try apply Forall_nil;
    match goal with |- absolute (fst (?p, _)) =>
      exists (flat_map (fun c => match c with CNorm n => [n] | _ => [] end) p); reflexivity end.
Qed.
Lemma the_fs_wf : wf_fs the_fs.
Proof. vm_compute. repeat constructor; intro H; repeat destruct H as [H|H]; try discriminate; destruct H. Qed.
Lemma world_outside : outputs_outside the_cache (default_wiki the_home) /\ every (outputs_outside the_cache) two_wikis None.
Proof.
  split; [|split; [|discriminate]].
  - apply (default_outside the_cache [bs "home"] the_cache_abs); [split|]; intros [r H]; discriminate.
  - repeat apply Forall_cons; try apply Forall_nil.
    + apply outputs_outside_intro with (wp := [bs "w0"]) (hp := []) (h := bs "w0_html"); auto using the_cache_abs;
        [split|]; intros [r H]; discriminate.
    + apply outputs_outside_intro with (wp := [bs "w1"]) (hp := []) (h := bs "w1_html"); auto using the_cache_abs;
        [split|]; intros [r H]; discriminate.
Qed.
Lemma world_apart : every (fun w => apart the_cache (w_path w)) two_wikis None.
Proof.
  split; [|discriminate]. repeat apply Forall_cons; try apply Forall_nil; split; intros [r H]; discriminate.
Qed.

(** * C54 *)

(** Full statement: a run with an include list does what a run on exactly the
    listed wikis does.  Proved when every listed wiki is still listed at its
    position among the listed ones ([kept]); in particular for include lists
    of names only and for the empty list.  Missing: the list is applied again
    to the already selected wikis, with the new positions, see [C54_refuted]. *)
Theorem C54_selection_partial utf8 sha parse ser de html home css opt stdout with_css config vim base wanted fs :
  configured opt config vim base -> picked (listed (o_include opt)) 0 base wanted ->
  (forall i w, nth_error wanted i = Some w -> listed (o_include opt) i w) ->
  run_convert utf8 sha parse ser de html home css opt stdout with_css config vim fs =
  run_convert utf8 sha parse ser de html home css (with_include opt []) stdout with_css wanted None fs.
Proof. apply select_stable. Qed.
Print Assumptions C54_selection_partial.
Theorem C54_names_partial utf8 sha parse ser de html home css opt stdout with_css config vim base wanted fs :
  configured opt config vim base -> picked (listed (o_include opt)) 0 base wanted ->
  (forall i, ~ In (IxIndex i) (o_include opt)) ->
  run_convert utf8 sha parse ser de html home css opt stdout with_css config vim fs =
  run_convert utf8 sha parse ser de html home css (with_include opt []) stdout with_css wanted None fs.
Proof. intros C P N. eapply select_stable; eauto. eapply names_kept; eauto. Qed.
Print Assumptions C54_names_partial.
(** Two configured wikis, the second one wanted: nothing is converted. *)
Theorem C54_refuted :
  exists opt config fs wanted,
    picked (listed (o_include opt)) 0 config wanted /\
    fst (world_convert opt true false config None fs) <> fst (world_convert (with_include opt []) true false wanted None fs).
Proof.
  exists (the_opt true true [IxIndex 1]), two_wikis, the_fs, [a_wiki None (bs "w1")]. split.
  - apply picked_no; [intros [H|[[H|[]]|(n & H & _)]]; discriminate|].
    apply picked_yes; [right; left; now left|]. apply picked_nil.
  - vm_compute. discriminate.
Qed.
Print Assumptions C54_refuted.
Definition named_wikis : list wiki := [a_wiki (Some (bs "x")) (bs "w0"); a_wiki (Some (bs "y")) (bs "w1")].
Example C54_case :
  let opt := the_opt true true [IxName (bs "y")] in
  configured opt named_wikis None named_wikis /\
  picked (listed (o_include opt)) 0 named_wikis [a_wiki (Some (bs "y")) (bs "w1")] /\
  filter (outside the_cache) (fst (world_convert opt true false named_wikis None the_fs)) =
    [APrint (bs "<p>beta" ++ [b_nl; b_nl])].
Proof.
  split; [|split].
  - right. right. split; [discriminate|]. auto.
  - apply picked_no; [intros [H|[[H|[]]|(n & H & [E|[]])]]; [discriminate|discriminate|]|].
    + injection E as <-. discriminate.
    + apply picked_yes; [|apply picked_nil]. right. right. exists (bs "y"). split; [reflexivity|now left].
  - vm_compute. reflexivity.
Qed.

(** * C55 *)

(** Loading a file returns the page that parsing its present text gives
    (or the error, or the panic), after any history of edits outside the
    cache and of complete or crashed runs, when SHA-1 has no collision among
    the texts that were in files and what was written for a page, or a
    beginning of it, reads back as that page or not at all. *)
Theorem C55_load utf8 sha parse ser de html home css format canonicalize cache fs ts p nc :
  absolute cache -> reads_back parse ser de -> collision_free sha ts ->
  history cache (program_run utf8 sha parse ser de html home css format canonicalize cache) fs ts ->
  fresh utf8 sha parse fs p (snd (load_wiki_file utf8 sha parse ser de p cache nc fs)).
Proof.
  intros C B Cf H.
  destruct (history_sound utf8 sha parse ser de cache C B html home css format canonicalize fs ts H) as (W & A & S & I).
  apply (load_result utf8 sha parse ser de cache p nc fs ts); auto.
Qed.
Print Assumptions C55_load.
(** Converting gives the same outputs with any contents of the cache, and with
    or without it: of two states with histories that agree outside the cache
    directory, runs with any cache options return the same and do the same
    outside the cache directory. *)
Theorem C55_convert utf8 sha parse ser de html home css format canonicalize cache fs ts fs' ts' opt nc np nc' np' stdout with_css config vim :
  let run := program_run utf8 sha parse ser de html home css format canonicalize cache in
  let m := run_convert utf8 sha parse ser de html home css (opt_with opt nc np) stdout with_css config vim in
  let m' := run_convert utf8 sha parse ser de html home css (opt_with opt nc' np') stdout with_css config vim in
  absolute cache -> reads_back parse ser de -> o_cache opt = cache ->
  outputs_outside cache (default_wiki home) -> every (outputs_outside cache) config vim ->
  every (fun w => apart cache (w_path w)) config vim ->
  history cache run fs ts -> history cache run fs' ts' ->
  rest_of cache fs = rest_of cache fs' ->
  (nc = true \/ ready cache fs) -> (nc' = true \/ ready cache fs') ->
  collision_free sha (ts ++ ts' ++ texts_of m fs ++ texts_of m' fs') ->
  snd (m fs) = snd (m' fs') /\
  filter (outside cache) (fst (m fs)) = filter (outside cache) (fst (m' fs')).
Proof.
  intros run m m' C B Hc Hd Ho Ha H H' E R R' Cf.
  destruct (history_sound utf8 sha parse ser de cache C B html home css format canonicalize fs ts H) as (W & A & S & _).
  destruct (history_sound utf8 sha parse ser de cache C B html home css format canonicalize fs' ts' H') as (W' & A' & S' & _).
  apply (convert_same utf8 sha parse ser de cache C B html home css opt nc np nc' np' stdout with_css config vim fs fs'
           (ts ++ ts' ++ texts_of m fs ++ texts_of m' fs')); auto.
  - split; auto. split; auto. split; [|auto]. eapply sound_more; [|exact S]. apply incl_appl, incl_refl.
  - split; auto. split; auto. split; [|auto]. eapply sound_more; [|exact S']. apply incl_appr, incl_appl, incl_refl.
  - intros x I y J. apply in_or_app. right. apply in_or_app. right. apply in_or_app. left. apply in_flat_map. eauto.
  - intros x I y J. apply in_or_app. right. apply in_or_app. right. apply in_or_app. right. apply in_flat_map. eauto.
Qed.
Print Assumptions C55_convert.
Local Notation world_run := (program_run all_utf8 the_sha the_parse the_ser the_de the_html the_home the_css (fun _ => None) (fun _ _ => None) the_cache).
Local Notation world_load := (load_wiki_file all_utf8 the_sha the_parse the_ser the_de).
(** A crash in the middle of writing the cache file, then a run: the page is
    that of the text. *)
Example C55_case :
  let p := [CRoot; nm "w0"; nm "a.wiki"] in
  let fs1 := act_all the_fs (crashed 0 3 (fst (world_load p the_cache false the_fs))) in
  absolute the_cache /\ reads_back the_parse the_ser the_de /\
  (exists ts, history the_cache world_run fs1 ts /\ collision_free the_sha ts) /\
  fs_get [CRoot; nm "cache"; nm "alpha"] fs1 = Some (NdFile (bs "alp")) /\
  snd (world_load p the_cache false fs1) = IOk (WikiFile p (bs "alpha") (the_page (bs "alpha"))).
Proof.
  split; [exact the_cache_abs|]. split; [exact the_back|]. split; [|split; vm_compute; reflexivity].
  eexists. split.
  - apply hist_crash.
    + apply hist_start.
      * vm_compute. repeat constructor; intro H; repeat destruct H as [H|H]; try discriminate; destruct H.
      * exact the_fs_abs.
      * intros p d I [r ->]. cbn in I. repeat destruct I as [I|I]; try discriminate; destruct I.
    + apply run_file.
  - intros a b _ _ E. exact E.
Qed.
(** Converting after that crash and converting at the start. *)
Lemma world_start : history the_cache world_run the_fs (contents the_fs).
Proof.
  apply hist_start; [exact the_fs_wf|exact the_fs_abs|].
  intros p d I [r ->]. cbn in I. repeat destruct I as [I|I]; try discriminate; destruct I.
Qed.
Example C55_convert_case :
  let fs1 := act_all the_fs (crashed 0 3 (fst (world_load [CRoot; nm "w0"; nm "a.wiki"] the_cache false the_fs))) in
  let m := world_convert (opt_with (the_opt false false []) true true) false true two_wikis None in
  let m' := world_convert (opt_with (the_opt false false []) false false) false true two_wikis None in
  outputs_outside the_cache (default_wiki the_home) /\ every (outputs_outside the_cache) two_wikis None /\
  every (fun w => apart the_cache (w_path w)) two_wikis None /\
  (exists ts ts', history the_cache world_run the_fs ts /\ history the_cache world_run fs1 ts' /\
    collision_free the_sha (ts ++ ts' ++ texts_of m the_fs ++ texts_of m' fs1)) /\
  rest_of the_cache the_fs = rest_of the_cache fs1 /\ ready the_cache fs1 /\
  snd (m the_fs) = IOk tt /\
  filter (outside the_cache) (fst (m' fs1)) =
    [AMkdir [CRoot; nm "w0_html"]; AWrite [CRoot; nm "w0_html"; nm "a.html"] (bs "<p>alpha" ++ [b_nl]);
     AWrite [CRoot; nm "w0_html"; nm "style.css"] the_css;
     AMkdir [CRoot; nm "w1_html"]; AWrite [CRoot; nm "w1_html"; nm "b.html"] (bs "<p>beta" ++ [b_nl]);
     AWrite [CRoot; nm "w1_html"; nm "style.css"] the_css].
Proof.
  cbn zeta. split; [apply world_outside|]. split; [apply world_outside|]. split; [exact world_apart|]. split.
  - eexists. eexists. split; [exact world_start|]. split.
    + eapply hist_crash; [exact world_start|]. apply run_file.
    + intros a b _ _ E. exact E.
  - split; [vm_compute; reflexivity|]. split; [intros [|[|[|k]]] [H1 H2]; cbn in *; try lia; reflexivity|].
    split; vm_compute; reflexivity.
Qed.

(** * C56 *)

(** Full statement: with the cache disabled no cache file is read or written.
    Proved: nothing in the cache directory has an influence on the outputs
    (also not with arbitrary contents); nothing is deleted and no directory is
    made; nothing is written when the cache directory does not exist.
    Missing: pages are written into an existing cache directory, see
    [C56_refuted]. *)
Theorem C56_unread_partial utf8 sha parse ser de home html css cache fs fs' opt np np' stdout with_css config vim :
  absolute cache -> o_cache opt = cache ->
  outputs_outside cache (default_wiki home) -> every (outputs_outside cache) config vim ->
  every (fun w => apart cache (w_path w)) config vim ->
  wf_fs fs -> wf_fs fs' -> abs_fs fs -> abs_fs fs' -> rest_of cache fs = rest_of cache fs' ->
  let m := run_convert utf8 sha parse ser de html home css (opt_with opt true np) stdout with_css config vim in
  let m' := run_convert utf8 sha parse ser de html home css (opt_with opt true np') stdout with_css config vim in
  snd (m fs) = snd (m' fs') /\
  filter (outside cache) (fst (m fs)) = filter (outside cache) (fst (m' fs')).
Proof.
  intros C Hc Hd Ho Ha W W' A A' E m m'.
  set (de0 := fun _ : str => @None page).
  assert (B : reads_back parse ser de0) by (intros text pg j x _ X; discriminate).
  apply (convert_same utf8 sha parse ser de0 cache C B html home css opt true np true np' stdout with_css config vim fs fs'
           (texts_of m fs ++ texts_of m' fs')); auto.
  - split; auto. split; auto. split; [intros name d pg _ X; discriminate|left; auto].
  - split; auto. split; auto. split; [intros name d pg _ X; discriminate|left; auto].
  - now left.
  - now left.
  - intros x I y J. apply in_or_app. left. apply in_flat_map. exists x. split; auto.
  - intros x I y J. apply in_or_app. right. apply in_flat_map. exists x. split; auto.
Qed.
Print Assumptions C56_unread_partial.
Theorem C56_actions_partial utf8 sha parse ser de wikis include cache np fs a :
  In a (fst (load_ast utf8 sha parse ser de wikis include cache true np fs)) ->
  exists dir name d, a = AWrite (cache_path cache name) d /\
    path_parent (cache_path cache name) = Some dir /\ is_dir fs dir = true.
Proof.
  intro I. pose proof (tidy_ast utf8 sha parse ser de cache wikis include np fs) as F.
  rewrite Forall_forall in F. exact (F a I).
Qed.
Print Assumptions C56_actions_partial.
Theorem C56_refuted :
  exists cache p fs d name, In (AWrite (cache_path cache name) d) (fst (world_load p cache true fs)).
Proof.
  exists the_cache, [CRoot; nm "w0"; nm "a.wiki"], the_fs, (bs "alpha" ++ [b_nl]), (bs "alpha").
  vm_compute. now left.
Qed.
Print Assumptions C56_refuted.

(** Without a cache directory. *)
Example C56_case :
  let fs := tl the_fs in
  wf_fs fs /\ abs_fs fs /\ rest_of the_cache fs = rest_of the_cache the_fs /\
  load_ast all_utf8 the_sha the_parse the_ser the_de two_wikis [] the_cache true false fs =
  ([], snd (load_ast all_utf8 the_sha the_parse the_ser the_de two_wikis [] the_cache true false the_fs)).
Proof.
  cbn zeta. split; [|split; [|split; vm_compute; reflexivity]].
  - pose proof the_fs_wf as H. now inversion H.
  - pose proof the_fs_abs as H. now inversion H.
Qed.

(** * C57 *)

(** A run that prunes ends like one that does not, except that exactly the
    files below the cache directory are gone whose name is not the checksum of
    a file in the loaded data. *)
Theorem C57_exact utf8 sha parse ser de wikis include cache fs l a :
  wf_fs fs -> load_ast utf8 sha parse ser de wikis include cache false false fs = (l, IOk a) ->
  exists l0, load_ast utf8 sha parse ser de wikis include cache false true fs = (l0, IOk a) /\
    forall p n, In (p, n) (act_all fs l) <-> In (p, n) (act_all fs l0) /\ ~ stale utf8 cache a p n.
Proof. apply prune_exact. Qed.
Print Assumptions C57_exact.
(** The loaded data has an entry for every page of every configured wiki, when
    the include list lists every wiki at its position.  Missing: other include
    lists, see [C57_refuted]. *)
Theorem C57_complete_partial utf8 sha parse ser de wikis include cache fs l a np w p text :
  absolute cache -> wf_fs fs -> ready cache fs ->
  Forall (fun w => apart cache (w_path w)) wikis ->
  (forall i w, nth_error wikis i = Some w -> listed include i w) ->
  load_ast utf8 sha parse ser de wikis include cache false np fs = (l, IOk a) ->
  In w wikis -> file_at fs p text -> below (w_path w) p -> extension p = Some (w_ext w) -> utf8 (w_ext w) = true ->
  exists aw f, In aw a /\ In f (aw_files aw) /\ wf_path f = p /\ wf_sum f = sha text.
Proof.
  intros C W R Ap K E I A B X U.
  apply (load_complete utf8 sha parse ser de cache C wikis include fs l a np W R Ap K E w p text I).
  repeat split; auto.
Qed.
Print Assumptions C57_complete_partial.
(** A wiki at another position than its index: its file was loaded, its cache
    file was just written, and pruning removes it. *)
Definition odd_wikis : list wiki := [a_wiki None (bs "w0"); a_wiki (Some (bs "y")) (bs "w1")].
Theorem C57_refuted :
  exists wikis include fs p text,
    file_at fs p text /\ listed include 1 (a_wiki (Some (bs "y")) (bs "w1")) /\
    nth_error wikis 1 = Some (a_wiki (Some (bs "y")) (bs "w1")) /\ below [CRoot; nm "w1"] p /\
    let l := fst (load_ast all_utf8 the_sha the_parse the_ser the_de wikis include the_cache false false fs) in
    In (AWrite (cache_path the_cache (the_sha text)) (the_ser (the_page text))) l /\
    fs_get (cache_path the_cache (the_sha text)) (act_all fs l) = None.
Proof.
  exists odd_wikis, [IxName (bs "y")], the_fs, [CRoot; nm "w1"; nm "b.wiki"], (bs "beta").
  split; [cbn; tauto|]. split; [right; right; exists (bs "y"); split; [reflexivity|now left]|].
  split; [reflexivity|]. split; [exists [nm "b.wiki"]; reflexivity|].
  split; vm_compute; [now left|reflexivity].
Qed.
Print Assumptions C57_refuted.
Definition old_fs : fsys := the_fs ++ [([CRoot; nm "cache"; nm "alpha"], NdFile (bs "alpha" ++ [b_nl])); ([CRoot; nm "cache"; nm "old"], NdFile (bs "x"))].
Example C57_case :
  wf_fs old_fs /\ ready the_cache old_fs /\ Forall (fun w => apart the_cache (w_path w)) two_wikis /\
  let l := fst (load_ast all_utf8 the_sha the_parse the_ser the_de two_wikis [] the_cache false false old_fs) in
  l = [AWrite [CRoot; nm "cache"; nm "beta"] (bs "beta" ++ [b_nl]); ADel [CRoot; nm "cache"; nm "old"]] /\
  fs_get [CRoot; nm "cache"; nm "alpha"] (act_all old_fs l) = Some (NdFile (bs "alpha" ++ [b_nl])).
Proof.
  split; [|split; [|split; [|split; vm_compute; reflexivity]]].
  - vm_compute. repeat constructor; intro H; repeat destruct H as [H|H]; try discriminate; destruct H.
  - intros [|[|[|k]]] [H1 H2]; cbn in *; try lia; reflexivity.
  - repeat constructor; intros [r H]; discriminate.
Qed.

(** * C71 *)

(** Formatting without [--inline] only prints. *)
Theorem C71_prints utf8 parse format canonicalize exts paths fs a :
  In a (fst (format_run utf8 parse format canonicalize false exts paths fs)) -> exists t, a = APrint t.
Proof. apply format_prints. Qed.
Print Assumptions C71_prints.
Theorem C71_unchanged utf8 parse format canonicalize exts paths fs :
  act_all fs (fst (format_run utf8 parse format canonicalize false exts paths fs)) = fs.
Proof.
  pose proof (format_prints utf8 parse format canonicalize exts paths fs) as H.
  induction (fst _) as [|a l IH]; auto. destruct (H a (or_introl eq_refl)) as [t ->]. cbn. apply IH.
  intros b I. apply H. now right.
Qed.
Print Assumptions C71_unchanged.

(** The real parser and printer. *)
Definition real_parse (t : str) : pres :=
  match parse_page rfc_uri_parse ymd_parse t with Ok _ p => POk p | Err => PErr | _ => PPanic end.
Definition real_format (p : page) : option str := page_to_vimwiki default_vw (fun _ _ => []) (fun s => s) p.
Definition found (fs : fsys) (p : path) : option path := match fs_get p fs with Some _ => Some p | None => None end.
Definition docs : fsys :=
  [([CRoot; nm "d"], NdDir); ([CRoot; nm "d"; nm "a.wiki"], NdFile (bs "=a=" ++ [b_nl])); ([CRoot; nm "d"; nm "b.txt"], NdFile (bs "=b=" ++ [b_nl]))].
Example C71_case :
  format_run all_utf8 real_parse real_format found false [bs "wiki"] [[CRoot; nm "d"]] docs =
  ([APrint (bs "= a =" ++ [b_nl; b_nl])], IOk tt).
Proof. vm_compute. reflexivity. Qed.

(** * C72 *)

(** Formatting in place replaces texts of the files it was asked to format by
    their formatted texts and changes nothing else; after success all of them
    have been formatted. *)
Theorem C72_only utf8 parse format canonicalize exts paths fs :
  wf_fs fs -> texts_irrelevant canonicalize ->
  reformatted utf8 parse format (asked canonicalize fs exts paths) fs
    (act_all fs (fst (format_run utf8 parse format canonicalize true exts paths fs))).
Proof. intros W I. apply good_end. now apply format_good. Qed.
Print Assumptions C72_only.
Theorem C72_all utf8 parse format canonicalize exts paths fs p t :
  wf_fs fs -> texts_irrelevant canonicalize -> Forall (fun e => utf8 e = true) exts ->
  snd (format_run utf8 parse format canonicalize true exts paths fs) = IOk tt ->
  asked canonicalize fs exts paths p -> file_at fs p t ->
  exists t', file_at (act_all fs (fst (format_run utf8 parse format canonicalize true exts paths fs))) p t' /\
    formats (formatted utf8 parse format) t t'.
Proof. intros W I U E A F. exact (format_done utf8 parse format canonicalize I exts paths fs p W U E A t F). Qed.
Print Assumptions C72_all.
(** A run that succeeds has found every path it was given. *)
Theorem C72_missing utf8 parse format canonicalize exts paths fs p :
  wf_fs fs -> texts_irrelevant canonicalize ->
  snd (format_run utf8 parse format canonicalize true exts paths fs) = IOk tt -> In p paths ->
  exists q, canonicalize fs p = Some q.
Proof. intros W I E J. exact (format_found utf8 parse format canonicalize I exts paths fs p W E J). Qed.
Print Assumptions C72_missing.
Lemma found_irrelevant : texts_irrelevant found.
Proof.
  intros fs p text d q A. unfold found. rewrite fs_get_set. destruct (path_eqb q p) eqn:E; auto.
  apply path_eqb_eq in E. subst q. unfold file_at in A. destruct (fs_get p fs) eqn:G; auto. exfalso.
  clear - A G. induction fs as [|[r n] fs IH]; [destruct A|]. cbn in G. destruct (path_eqb p r) eqn:E; [discriminate|].
  destruct A as [A|A]; [|auto]. injection A as -> ->. rewrite path_eqb_refl in E. discriminate.
Qed.
Example C72_case :
  wf_fs docs /\ texts_irrelevant found /\
  format_run all_utf8 real_parse real_format found true [bs "wiki"] [[CRoot; nm "d"]] docs =
  ([AWrite [CRoot; nm "d"; nm "a.wiki"] (bs "= a =" ++ [b_nl])], IOk tt).
Proof.
  split; [|split; [apply found_irrelevant | vm_compute; reflexivity]].
  vm_compute. repeat constructor; intro H; repeat destruct H as [H|H]; try discriminate; destruct H.
Qed.

Example C72_missing_case :
  let gone := [CRoot; nm "d"; nm "c.wiki"] in
  found docs gone = None /\
  format_run all_utf8 real_parse real_format found true [bs "wiki"] [[CRoot; nm "d"]; gone] docs =
  ([AWrite [CRoot; nm "d"; nm "a.wiki"] (bs "= a =" ++ [b_nl])], IErr).
Proof. vm_compute. split; reflexivity. Qed.

(** * C73 *)

(** Full statement: after a crash during formatting in place every document
    has its old or its formatted text.  Proved for all documents but one.
    Missing: the one being written, see [C73_refuted]. *)
Theorem C73_others_partial utf8 parse format canonicalize exts paths fs k j :
  wf_fs fs -> texts_irrelevant canonicalize ->
  let fs' := act_all fs (crashed k j (fst (format_run utf8 parse format canonicalize true exts paths fs))) in
  exists p0, forall p t, p <> p0 -> file_at fs p t ->
    file_at fs' p t \/ exists t', file_at fs' p t' /\ formats (formatted utf8 parse format) t t'.
Proof. intros W I. exact (format_crash utf8 parse format canonicalize I exts paths fs k j W). Qed.
Print Assumptions C73_others_partial.
Theorem C73_refuted :
  exists fs p k j,
    (exists t, file_at fs p t /\ t <> []) /\
    file_at (act_all fs (crashed k j (fst (format_run all_utf8 real_parse real_format found true [] [p] fs)))) p [].
Proof.
  exists docs, [CRoot; nm "d"; nm "a.wiki"], 0, 0. split.
  - exists (bs "=a=" ++ [b_nl]). split; [cbn; tauto|discriminate].
  - vm_compute. tauto.
Qed.
Print Assumptions C73_refuted.

(** * C74 *)

(** Everything that converting does: cache files; without [--stdout] the HTML
    of pages at their output paths, the style sheet and directories; with
    [--stdout] printed HTML.  Each HTML is that of a text which the file had
    during the run. *)
Theorem C74_outputs utf8 sha parse ser de html home css format canonicalize cache fs ts opt stdout with_css config vim base wanted :
  let m := run_convert utf8 sha parse ser de html home css opt stdout with_css config vim in
  absolute cache -> reads_back parse ser de -> o_cache opt = cache ->
  outputs_outside cache (default_wiki home) -> every (outputs_outside cache) config vim ->
  history cache (program_run utf8 sha parse ser de html home css format canonicalize cache) fs ts ->
  collision_free sha (ts ++ texts_of m fs) ->
  configured opt config vim base -> picked (listed (o_include opt)) 0 base wanted ->
  Forall (allowed parse html home css cache wanted stdout with_css (fun x => In x (states fs (fst (m fs))))) (fst (m fs)).
Proof.
  intros m C B Hc Hd Ho H Cf Hb Hp.
  destruct (history_sound utf8 sha parse ser de cache C B html home css format canonicalize fs ts H) as (W & A & S & _).
  pose proof (config_spec home opt config vim fs base wanted Hb Hp) as L.
  apply (spec_run utf8 sha parse ser de html home css cache wanted stdout with_css (fun x => In x (states fs (fst (m fs))))
           (ts ++ texts_of m fs) C B Hd (every_loaded home _ _ _ _ _ _ Ho L) opt config vim fs Hc L).
  - split; auto. split; auto. split; [|auto]. eapply sound_more; [|exact S]. apply incl_appl, incl_refl.
  - intros x I. split; auto. intros y J. apply in_or_app. right. apply in_flat_map. eauto.
Qed.
Print Assumptions C74_outputs.
(** Its hypotheses hold for the run of [C55_convert_case]; one of the actions. *)
Example C74_case :
  let m := world_convert (the_opt false false []) false true two_wikis None in
  (exists ts, history the_cache world_run the_fs ts /\ collision_free the_sha (ts ++ texts_of m the_fs)) /\
  configured (the_opt false false []) two_wikis None two_wikis /\
  picked (listed []) 0 two_wikis two_wikis /\
  In (AWrite [CRoot; nm "w0_html"; nm "a.html"] (bs "<p>alpha" ++ [b_nl])) (fst (m the_fs)).
Proof.
  cbn zeta. split; [|split; [|split]].
  - eexists. split; [exact world_start|]. intros a b _ _ E. exact E.
  - right. right. split; [discriminate|]. auto.
  - apply picked_yes; [now left|]. apply picked_yes; [now left|]. apply picked_nil.
  - vm_compute. tauto.
Qed.
