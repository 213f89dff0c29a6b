(** Claim C97: what the exit status of the program says. *)
From Verif Require Import Base ModelSpan ModelAst ModelPath ModelCli ModelExit SpecCli SpecExit ProofCli ProofExit PropertiesCli.
Local Open Scope nat_scope.
Local Notation nm s := (CNorm (bs s)).
Local Notation below := SpecCli.below.
Local Notation world_run := (run_wikis all_utf8 the_sha the_parse the_ser the_de (fun _ p => Some p) the_home).

(** ** C97 *)
(** Status 1 is a configuration that cannot be read or a path that does not
    exist, and then nothing at all has happened. *)
Theorem C97_config utf8 sha parse ser de canonicalize home opt config vim extra sub fs l :
  run_wikis utf8 sha parse ser de canonicalize home opt config vim extra sub fs = (l, 1) ->
  l = [] /\ (config = None \/ exists p, In p extra /\ canonicalize fs p = None).
Proof.
  unfold run_wikis. destruct config as [c|]; [|intro H; injection H as <-; auto].
  destruct (load_html_config canonicalize home opt c vim extra fs) as [ws|] eqn:E.
  - destruct (load_ast _ _ _ _ _ _ _ _ _ _ fs) as [l0 [a| |]]; try discriminate.
    destruct (sub ws a (act_all fs l0)) as [l1 [u| |]]; discriminate.
  - intro H. injection H as <-. apply config_none in E. auto.
Qed.
Print Assumptions C97_config.
Theorem C97_config_only utf8 sha parse ser de canonicalize home opt config vim extra sub fs :
  (config = None \/ exists p, In p extra /\ canonicalize fs p = None) ->
  run_wikis utf8 sha parse ser de canonicalize home opt config vim extra sub fs = ([], 1).
Proof.
  unfold run_wikis. intros [-> |H]; [reflexivity|]. destruct config as [c|]; [|reflexivity].
  now rewrite (proj2 (config_none canonicalize home opt c vim extra fs) H).
Qed.
Print Assumptions C97_config_only.
(** Status 2: the wikis could not be loaded; nothing has been printed and only
    the cache has been touched. *)
Theorem C97_data utf8 sha parse ser de canonicalize home opt config vim extra sub fs l :
  absolute (o_cache opt) ->
  run_wikis utf8 sha parse ser de canonicalize home opt config vim extra sub fs = (l, 2) ->
  Forall (on_cache (o_cache opt)) l /\
  forall p, ~ below (o_cache opt) p -> ~ below p (o_cache opt) -> fs_get p (act_all fs l) = fs_get p fs.
Proof.
  intros A H. assert (F : Forall (on_cache (o_cache opt)) l).
  { unfold run_wikis in H. destruct config as [c|]; [|discriminate].
    destruct (load_html_config canonicalize home opt c vim extra fs) as [ws|]; [|discriminate].
    pose proof (keeps_load_ast utf8 sha parse ser de (o_cache opt) A ws (o_include opt) (o_no_cache opt) (o_no_prune opt) fs) as K.
    destruct (load_ast _ _ _ _ _ _ _ _ _ _ fs) as [l0 [a| |]]; cbn [fst] in K.
    - destruct (sub ws a (act_all fs l0)) as [l1 [u| |]]; discriminate.
    - injection H as <-. exact K.
    - discriminate. }
  split; [exact F|]. intros p N M. now apply on_cache_rest with (cache := o_cache opt).
Qed.
Print Assumptions C97_data.
Definition bad_fs : fsys := the_fs ++ [([CRoot; nm "w1"; nm "d.wiki"], NdFile [])].
Example C97_case : snd (world_run (the_opt false false []) None None [] serve the_fs) = 1 /\
  snd (world_run (the_opt false false []) (Some two_wikis) None [] serve bad_fs) = 2.
Proof. split; vm_compute; reflexivity. Qed.
(** Status 0 of convert: the run that [run_convert] describes, to its end. *)
Theorem C97_convert utf8 sha parse ser de html home css opt stdout with_css c vim fs :
  let sub := fun ws a => bind (convert_wikis utf8 sha parse ser de html home css opt stdout with_css ws a) (fun _ => ret tt) in
  let r := run_wikis utf8 sha parse ser de (fun _ _ => None) home opt (Some c) vim [] sub fs in
  let m := run_convert utf8 sha parse ser de html home css opt stdout with_css c vim fs in
  fst r = fst m /\ (snd r = 0 <-> snd m = IOk tt) /\ (snd r = 101 <-> snd m = IPanic).
Proof.
  cbv zeta. unfold run_wikis, run_convert. destruct (load_html_config (fun _ _ => None) home opt c vim [] fs) as [ws|]; [|cbn; repeat split; (discriminate || reflexivity || (intro; discriminate) || (intro; reflexivity))].
  rewrite (bind_run (load_ast utf8 sha parse ser de ws _ _ _ _)). destruct (load_ast utf8 sha parse ser de ws _ _ _ _ fs) as [l0 [a| |]]; [|cbn; repeat split; (discriminate || reflexivity || (intro; discriminate) || (intro; reflexivity))..].
  destruct (bind _ _ (act_all fs l0)) as [l1 [[]| |]]; cbn; repeat split; (discriminate || reflexivity || (intro; discriminate) || (intro; reflexivity)).
Qed.
Print Assumptions C97_convert.
(** Full statement: status 0 means that the subcommand has done its work.
    False for serve, which ends at once and does nothing but load. *)
Theorem C97_serve_refuted utf8 sha parse ser de canonicalize home opt config vim extra fs l n :
  absolute (o_cache opt) ->
  run_wikis utf8 sha parse ser de canonicalize home opt config vim extra serve fs = (l, n) ->
  Forall (on_cache (o_cache opt)) l.
Proof.
  intros A H. unfold run_wikis in H. destruct config as [c|]; [|injection H as <- _; constructor].
  destruct (load_html_config canonicalize home opt c vim extra fs) as [ws|]; [|injection H as <- _; constructor].
  pose proof (keeps_load_ast utf8 sha parse ser de (o_cache opt) A ws (o_include opt) (o_no_cache opt) (o_no_prune opt) fs) as K.
  destruct (load_ast _ _ _ _ _ _ _ _ _ _ fs) as [l0 [a| |]]; cbn [fst] in K; injection H as <- _; [now rewrite app_nil_r|exact K..].
Qed.
Print Assumptions C97_serve_refuted.
Example C97_serve_case : snd (world_run (the_opt false false []) (Some two_wikis) None [] serve the_fs) = 0.
Proof. vm_compute. reflexivity. Qed.
