(** Pages saved as JSON, and [vimwiki inspect] (C78, C79; more of C55). *)
From Verif Require Import Base ModelSpan ModelComb ModelAst ModelLink ModelInline ModelBlock ModelOracle ModelPath ModelVimwiki ModelCli ModelJson ModelInspect
  SpecEq SpecCli SpecJson ProofYield ProofCli ProofCli2 ProofJson ProofJson2 ProofJson3 ProofJson4 PropertiesCli.
From Coq Require Import NArith ZArith Nnat Znat.
Local Open Scope nat_scope.

(** ** A way to write URI references and dates, for the examples *)

Definition ex_uri (u : uri) : json :=
  JArr [jopt JStr (u_scheme u); jopt JStr (u_authority u); JBool (u_abs u); jstrs (u_segs u); jopt JStr (u_query u); jopt JStr (u_fragment u)].
Definition ex_opt (j : json) : option (option str) :=
  match j with JNull => Some None | JStr s => Some (Some s) | _ => None end.
Definition ex_uri_de (j : json) : option uri :=
  match j with
  | JArr [s; a; JBool b; l; q; f] =>
      match ex_opt s, ex_opt a, d_list d_str l, ex_opt q, ex_opt f with
      | Some s, Some a, Some l, Some q, Some f => Some (Uri s a b l q f)
      | _, _, _, _, _ => None
      end
  | _ => None
  end.
Definition ex_date_json (d : date) : json :=
  JArr [JBool (0 <=? d_year d)%Z; JNum (Z.abs_N (d_year d)); jnat (d_month d); jnat (d_day d)].
Definition ex_date (d : date) : str := fst (jprint 0 (ex_date_json d)).
Definition ex_date_de (s : str) : option date :=
  match jread s with
  | Some (JArr [JBool b; JNum y; JNum m; JNum d]) =>
      Some (Date (if b then Z.of_N y else - Z.of_N y)%Z (N.to_nat m) (N.to_nat d))
  | _ => None
  end.
Lemma ex_opt_back o : ex_opt (jopt JStr o) = Some o.
Proof. now destruct o. Qed.
Lemma ex_strs_back l : d_list d_str (jstrs l) = Some l.
Proof. unfold d_list, jstrs. induction l as [|x l IH]; cbn [map all_some d_str]; [reflexivity|]. now rewrite IH. Qed.
Lemma ex_uri_back u : ex_uri_de (ex_uri u) = Some u.
Proof.
  destruct u as [s a b l q f]. unfold ex_uri, ex_uri_de. cbn [u_scheme u_authority u_abs u_segs u_query u_fragment].
  now rewrite !ex_opt_back, ex_strs_back.
Qed.
Lemma ex_date_back d : ex_date_de (ex_date d) = Some d.
Proof.
  unfold ex_date_de, ex_date. rewrite jread_whole; [|reflexivity|cbn; lia]. destruct d as [y m d].
  unfold ex_date_json, jnat. cbn [d_year d_month d_day]. rewrite !Nat2N.id. f_equal. f_equal.
  destruct (0 <=? y)%Z eqn:E; [apply Z.leb_le in E|apply Z.leb_gt in E]; rewrite N2Z.inj_abs_N; lia.
Qed.
Lemma ex_uri_whole u : whole (ex_uri u) = true.
Proof.
  unfold ex_uri. cbn [whole forallb]. rewrite whole_strs.
  destruct (u_scheme u), (u_authority u), (u_query u), (u_fragment u); reflexivity.
Qed.
Lemma ex_uri_depth u : jdepth (ex_uri u) <= 2.
Proof.
  unfold ex_uri. pose proof (strs_depth (u_segs u)) as H. cbn [jdepth fold_right].
  destruct (u_scheme u), (u_authority u), (u_query u), (u_fragment u); cbn [jopt jdepth] in *; lia.
Qed.
Local Notation ex_ser := (ser_page ex_uri ex_date).
Local Notation ex_de := (de_page ex_uri_de ex_date_de).
Local Notation ex_parse := (parse_page rfc_uri_parse ymd_parse).

(** * C78 *)

(** Full statement: a parsed page that is saved is read back.
    Proved: what is read back of a saved page, or of any beginning of what is
    written for it, is that page, and only all of it is read back; it is read
    back exactly when it has no definition list and the text is nested at most
    127 levels deep; this is so for every page with undecorated text and lists
    of up to 22 levels (when URI references are written at most 4 deep).
    Missing: pages with a definition list, and with lists of 25 and more
    levels, are never read back ([C78_refuted]). *)
Theorem C78_only_the_page uri_json date_str uri_de date_de up dp text rest p i x :
  (forall u, uri_de (uri_json u) = Some u) -> (forall d, date_de (date_str d) = Some d) ->
  parse_page up dp text = Ok rest p ->
  de_page uri_de date_de (firstn i (ser_page uri_json date_str p)) = Some x ->
  x = p /\ length (ser_page uri_json date_str p) <= i.
Proof. intros U D P. apply read_begin; auto. exact (parsed_ok up dp text rest p P). Qed.
Print Assumptions C78_only_the_page.
Definition sample : str :=
  bs "= Title =" ++ [b_nl] ++ [b_nl] ++ bs "Some *bold* text, [[a link|described]] and :tags:" ++ [b_nl] ++ [b_nl]
  ++ bs "- [X] one" ++ [b_nl] ++ bs "    1. two" ++ [b_nl] ++ [b_nl]
  ++ bs "| a | b |" ++ [b_nl] ++ bs "|---|:-:|" ++ [b_nl] ++ bs "| > | \/ |" ++ [b_nl] ++ [b_nl]
  ++ bs "{{{c x=""1""" ++ [b_nl] ++ bs "code" ++ [b_nl] ++ bs "}}}" ++ [b_nl].
(** One byte less is not read. *)
Example C78_only_the_page_case :
  match ex_parse sample with
  | Ok _ p =>
      let t := ex_ser p in
      match ex_de t with Some x => ok_page x | None => False end /\ ex_de (firstn (length t - 1) t) = None
  | _ => False
  end.
Proof.
  destruct (ex_parse sample) as [r p| | |] eqn:E; try (exfalso; revert E; vm_compute; discriminate).
  assert (K := parsed_ok _ _ _ _ _ E). assert (W : match ex_parse sample with Ok _ p => ex_de (ex_ser p) <> None | _ => False end)
    by (vm_compute; discriminate). rewrite E in W. cbn zeta. split.
  - destruct (ex_de (ex_ser p)) as [x|] eqn:D; [|now apply W]. rewrite <- (firstn_all (ex_ser p)) in D.
    apply (C78_only_the_page _ _ _ _ _ _ _ _ _ _ _ ex_uri_back ex_date_back E) in D as [-> _]. exact K.
  - destruct (ex_de (firstn _ _)) as [x|] eqn:D; [|reflexivity]. exfalso.
    apply (C78_only_the_page _ _ _ _ _ _ _ _ _ _ _ ex_uri_back ex_date_back E) in D as [_ D].
    destruct (ex_ser p); cbn [length] in D; [|lia]. apply W. reflexivity.
Qed.

Theorem C78_read_back_when uri_json date_str uri_de date_de up dp text rest p :
  (forall u, uri_de (uri_json u) = Some u) -> (forall d, date_de (date_str d) = Some d) ->
  (forall u, whole (uri_json u) = true) ->
  parse_page up dp text = Ok rest p ->
  (de_page uri_de date_de (ser_page uri_json date_str p) = Some p <->
   ~ page_defs p /\ jdepth (j_page uri_json date_str p) <= 127).
Proof.
  intros U D W P. rewrite read_iff by (auto; exact (parsed_ok up dp text rest p P)).
  now rewrite page_whole by exact W.
Qed.
Print Assumptions C78_read_back_when.
Theorem C78_common_partial uri_json date_str uri_de date_de k up dp text rest p :
  (forall u, uri_de (uri_json u) = Some u) -> (forall d, date_de (date_str d) = Some d) ->
  (forall u, whole (uri_json u) = true) -> (forall u, jdepth (uri_json u) <= S k) ->
  parse_page up dp text = Ok rest p ->
  simple_page p -> ~ page_defs p -> 5 * page_levels p + k <= 113 ->
  de_page uri_de date_de (ser_page uri_json date_str p) = Some p.
Proof.
  intros U D W K P Sm N L. apply (C78_read_back_when _ _ _ _ _ _ _ _ _ U D W P). split; auto.
  pose proof (simple_page_depth uri_json date_str k K p Sm N). lia.
Qed.
Print Assumptions C78_common_partial.
(** Its hypotheses, with two levels of lists and a link; the page is read back. *)
Definition common : str :=
  bs "Text with [[a link|described]] and :tags:" ++ [b_nl] ++ [b_nl]
  ++ bs "- [X] one" ++ [b_nl] ++ bs "    1. two" ++ [b_nl] ++ [b_nl]
  ++ bs "| a | b |" ++ [b_nl] ++ bs "|---|:-:|" ++ [b_nl].
Example C78_common_case :
  match ex_parse common with
  | Ok _ p => simple_page p /\ ~ page_defs p /\ page_levels p = 2 /\ ex_de (ex_ser p) = Some p
  | _ => False
  end.
Proof. vm_compute. repeat split; tauto. Qed.

(** What is never read back: definition lists, and deep lists. *)
Theorem C78_not_read_back uri_json date_str uri_de date_de up dp text rest p i :
  (forall u, uri_de (uri_json u) = Some u) -> (forall d, date_de (date_str d) = Some d) ->
  (forall u, whole (uri_json u) = true) ->
  parse_page up dp text = Ok rest p ->
  page_defs p \/ 25 <= page_levels p ->
  de_page uri_de date_de (firstn i (ser_page uri_json date_str p)) = None.
Proof.
  intros U D W P B. destruct (de_page _ _ _) as [x|] eqn:E; [|reflexivity]. exfalso.
  assert (E' := E). destruct (C78_only_the_page _ _ _ _ _ _ _ _ _ _ _ U D P E) as [-> L].
  rewrite firstn_all2 in E' by exact L. apply (C78_read_back_when _ _ _ _ _ _ _ _ _ U D W P) in E' as [N Dp].
  destruct B as [B|B]; [auto|]. destruct (page_deep uri_json date_str p); lia.
Qed.
Print Assumptions C78_not_read_back.
Theorem C78_refuted : exists text rest p,
  ex_parse text = Ok rest p /\ page_defs p /\ ex_de (ex_ser p) = None.
Proof.
  exists (bs "Term:: definition" ++ [b_nl]).
  destruct (ex_parse _) as [r p| | |] eqn:E; try (exfalso; revert E; vm_compute; discriminate).
  exists r, p. split; [reflexivity|].
  assert (K : match ex_parse (bs "Term:: definition" ++ [b_nl]) with Ok _ p => page_defs p /\ ex_de (ex_ser p) = None | _ => False end).
  { vm_compute. split; [left; discriminate|reflexivity]. }
  rewrite E in K. exact K.
Qed.
Print Assumptions C78_refuted.
(** Lists of 25 levels: what is written, with the brackets of all levels, is not read. *)
Fixpoint nested (n : nat) : block :=
  BList [Loc (ListItem (TUnordered UHyphen) SufNone 0
    (Loc (BParagraph [[Loc (IText (bs "x")) (Region 0 0 0)]]) (Region 0 0 0)
     :: match n with 0 => [] | S n => [Loc (nested n) (Region 0 0 0)] end) None) (Region 0 0 0)].
Example C78_deep_case :
  let p n := [Loc (nested n) (Region 0 0 0)] in
  page_levels (p 24) = 25 /\ ex_de (ex_ser (p 24)) = None /\ page_levels (p 21) = 22 /\ ex_de (ex_ser (p 21)) = Some (p 21).
Proof. vm_compute. auto. Qed.

(** * C55 again *)

(** With the encoder, the decoder and the parser of the program themselves, the
    hypothesis of C55 about reading back holds. *)
Theorem C55_reads_back uri_json date_str uri_de date_de up dp :
  (forall u, uri_de (uri_json u) = Some u) -> (forall d, date_de (date_str d) = Some d) ->
  reads_back (parse_text up dp) (ser_page uri_json date_str) (de_page uri_de date_de).
Proof.
  intros U D text pg j x P E. unfold parse_text in P. destruct (parse_page up dp text) as [r p| | |] eqn:Q; try discriminate.
  injection P as <-. now apply (C78_only_the_page _ _ _ _ _ _ _ _ _ _ _ U D Q E).
Qed.
Print Assumptions C55_reads_back.
Theorem C55_load_program uri_json date_str uri_de date_de up dp utf8 sha html home css format canonicalize cache fs ts p nc :
  let parse := parse_text up dp in
  let ser := ser_page uri_json date_str in
  let de := de_page uri_de date_de in
  (forall u, uri_de (uri_json u) = Some u) -> (forall d, date_de (date_str d) = Some d) ->
  absolute cache -> collision_free sha ts ->
  history cache (program_run utf8 sha parse ser de html home css format canonicalize cache) fs ts ->
  fresh utf8 sha parse fs p (snd (load_wiki_file utf8 sha parse ser de p cache nc fs)).
Proof. intros parse ser de U D A Cf H. eapply C55_load; eauto. now apply C55_reads_back. Qed.
Print Assumptions C55_load_program.
(** A page is loaded, which saves it; then it is loaded from what was saved. *)
Definition page_fs : fsys :=
  [([CRoot; CNorm (bs "cache")], NdDir); ([CRoot; CNorm (bs "w")], NdDir);
   ([CRoot; CNorm (bs "w"); CNorm (bs "a.wiki")], NdFile sample)].
Example C55_load_program_case :
  let p := [CRoot; CNorm (bs "w"); CNorm (bs "a.wiki")] in
  let load := load_wiki_file all_utf8 (fun _ => bs "sum") (parse_text rfc_uri_parse ymd_parse) ex_ser ex_de p the_cache false in
  let fs1 := act_all page_fs (fst (load page_fs)) in
  length (fst (load page_fs)) = 1 /\ fst (load fs1) = [] /\ snd (load fs1) = snd (load page_fs) /\
  match snd (load page_fs) with IOk f => length (wf_data f) = 5 | _ => False end.
Proof. vm_compute. repeat split. Qed.

(** * C79 *)

(** Full statement: [vimwiki inspect] prints the answer to its query whenever
    the wikis can be loaded.
    Proved: it prints (or writes) the answer, which is valid JSON, whenever in
    addition no loaded page has a definition list and the paths are UTF-8.
    Missing: with a definition list it fails ([C79_refuted]). *)
Theorem C79_answer_partial utf8 sha parse ser de canonicalize home uri_json date_str path_str select
    opt output query config vim extra fs wikis a vs :
  let load := load_ast utf8 sha parse ser de wikis (o_include opt) (o_cache opt) (o_no_cache opt) (o_no_prune opt) in
  let run := run_inspect utf8 sha parse ser de canonicalize home uri_json date_str path_str select opt output query config vim extra fs in
  let shown := j_ast uri_json date_str path_str a in
  (forall u, whole (uri_json u) = true) ->
  load_html_config canonicalize home opt config vim extra fs = Some wikis ->
  snd (load fs) = IOk a ->
  (forall p, In p (loaded_pages a) -> ~ page_defs p) -> (forall p, In p (loaded_paths a) -> path_str p <> None) ->
  select shown query = Some vs -> (forall v, In v vs -> within v shown) ->
  exists text,
    (jdepth (JArr vs) < 128 -> jread text = Some (JArr vs)) /\
    match output with
    | None => run = (fst (load fs) ++ [APrint text], IOk tt)
    | Some p =>
        let (l, r) := write_file p text (act_all fs (fst (load fs))) in
        run = (fst (load fs) ++ l, r)
    end.
Proof.
  intros load run shown W C L Np Nu Sel Wi.
  assert (Wh : whole shown = true) by now apply ast_whole.
  exists (fst (jprint 0 (JArr vs))). split.
  { intro D. apply jread_whole; auto. apply whole_arr_iff. intros v I. exact (within_whole _ _ (Wi v I) Wh). }
  assert (R : run = ModelCli.bind load (inspect uri_json date_str path_str select output query) fs).
  { unfold run, run_inspect. now rewrite C. }
  rewrite R. unfold ModelCli.bind. destruct (load fs) as [l r]. cbn [fst snd] in *. subst r.
  unfold inspect. fold shown. rewrite Wh, Sel. destruct output as [p|]; [|reflexivity].
  now destruct (write_file p _ _).
Qed.
Print Assumptions C79_answer_partial.
Definition inspect_fs (text : str) : fsys :=
  [([CRoot; CNorm (bs "cache")], NdDir); ([CRoot; CNorm (bs "w0")], NdDir);
   ([CRoot; CNorm (bs "w0"); CNorm (bs "a.wiki")], NdFile text)].
Definition ex_path (p : path) : option str := Some (path_to_uri_string p).
(** The query for all paths of files. *)
Definition ex_select (j : json) (q : str) : option (list json) :=
  match need "wikis" (d_list Some) j with
  | Some ws => Some (flat_map (fun w => match need "files" (d_list Some) w with
                                        | Some fs => flat_map (fun f => match need "path" Some f with Some x => [x] | None => [] end) fs
                                        | None => []
                                        end) ws)
  | None => None
  end.
Local Notation ex_inspect := (run_inspect all_utf8 (fun _ => bs "sum") (parse_text rfc_uri_parse ymd_parse) ex_ser ex_de
  (fun _ p => Some p) the_home ex_uri ex_date ex_path ex_select).
Example C79_answer_case :
  let r := ex_inspect (the_opt true true []) None (bs "$..path") [a_wiki None (bs "w0")] None [] (inspect_fs (bs "text" ++ [b_nl])) in
  snd r = IOk tt /\
  filter (fun a => match a with APrint _ => true | _ => false end) (fst r) =
    [APrint (bs "[" ++ [b_nl] ++ bs "  ""/w0/a.wiki""" ++ [b_nl] ++ bs "]")].
Proof. vm_compute. auto. Qed.

(** What the query is about holds every loaded file with its path, checksum and
    page. *)
Theorem C79_shown_partial uri_json date_str uri_de date_de path_str up dp a w f text rest :
  let shown := j_ast uri_json date_str path_str a in
  (forall u, uri_de (uri_json u) = Some u) -> (forall d, date_de (date_str d) = Some d) ->
  (forall u, whole (uri_json u) = true) ->
  (forall p, In p (loaded_pages a) -> ~ page_defs p) -> (forall p, In p (loaded_paths a) -> path_str p <> None) ->
  In w a -> In f (aw_files w) -> parse_page up dp text = Ok rest (wf_data f) ->
  exists v,
    within v shown /\ need "path" d_str v = path_str (wf_path f) /\ need "checksum" d_str v = Some (wf_sum f) /\
    need "data" (d_page uri_de date_de) v = Some (wf_data f).
Proof.
  intros shown U D W Np Nu Iw If P. exists (j_file uri_json date_str path_str f). split.
  { eapply within_obj; [left; reflexivity|]. eapply within_arr; [apply in_map, Iw|].
    eapply within_obj; [do 3 right; left; reflexivity|]. eapply within_arr; [apply in_map, If|]. constructor. }
  assert (X : path_str (wf_path f) <> None).
  { apply Nu, in_flat_map. exists w. split; auto. right. now apply in_map. }
  unfold j_file. split; [|split].
  - change (d_str (j_path path_str (wf_path f)) = path_str (wf_path f)). unfold j_path. destruct (path_str (wf_path f)); [reflexivity|congruence].
  - reflexivity.
  - change (d_page uri_de date_de (j_page uri_json date_str (wf_data f)) = Some (wf_data f)). apply page_back; auto.
    + exact (parsed_ok up dp text rest _ P).
    + apply page_whole; auto. apply Np, in_flat_map. exists w. split; auto. now apply in_map.
Qed.
Print Assumptions C79_shown_partial.
Example C79_shown_case :
  match load_wiki_file all_utf8 (fun _ => bs "sum") (parse_text rfc_uri_parse ymd_parse) ex_ser ex_de [CRoot; CNorm (bs "w0"); CNorm (bs "a.wiki")] the_cache true (inspect_fs common) with
  | (_, IOk f) =>
      let a := [AstWiki 0 None [CRoot; CNorm (bs "w0")] [f]] in
      ~ page_defs (wf_data f) /\ whole (j_ast ex_uri ex_date ex_path a) = true /\ length (wf_data f) = 3
  | _ => False
  end.
Proof. vm_compute. repeat split. tauto. Qed.

(** One page with a definition list and [inspect] fails, for every query; it
    prints nothing and writes only what loading writes. *)
Theorem C79_fails utf8 sha parse ser de canonicalize home uri_json date_str path_str select
    opt output query config vim extra fs wikis a p :
  let load := load_ast utf8 sha parse ser de wikis (o_include opt) (o_cache opt) (o_no_cache opt) (o_no_prune opt) in
  (forall u, whole (uri_json u) = true) ->
  load_html_config canonicalize home opt config vim extra fs = Some wikis ->
  snd (load fs) = IOk a -> In p (loaded_pages a) -> page_defs p ->
  run_inspect utf8 sha parse ser de canonicalize home uri_json date_str path_str select opt output query config vim extra fs
    = (fst (load fs), IErr).
Proof.
  intros load W C L I D. unfold run_inspect. rewrite C. unfold ModelCli.bind. fold load.
  destruct (load fs) as [l r]. cbn [fst snd] in *. subst r. unfold inspect.
  destruct (whole _) eqn:E; [|cbn; now rewrite app_nil_r].
  apply ast_whole in E as [E _]; auto. now destruct (E p I).
Qed.
Print Assumptions C79_fails.
Theorem C79_refuted : exists config fs l,
  (exists wikis a, load_html_config (fun _ p => Some p) the_home (the_opt true true []) config None [] fs = Some wikis /\
     snd (load_ast all_utf8 (fun _ => bs "sum") (parse_text rfc_uri_parse ymd_parse) ex_ser ex_de wikis [] the_cache true true fs) = IOk a) /\
  ex_inspect (the_opt true true []) None (bs "$..path") config None [] fs = (l, IErr).
Proof.
  exists [a_wiki None (bs "w0")], (inspect_fs (bs "Term:: definition" ++ [b_nl])). eexists. split.
  - eexists. eexists. split; [vm_compute; reflexivity|]. vm_compute. reflexivity.
  - vm_compute. reflexivity.
Qed.
Print Assumptions C79_refuted.
