(** Saved pages and [vimwiki inspect]. *)
From Verif Require Import Base ModelSpan ModelComb ModelAst ModelLink ModelInline ModelBlock ModelPath ModelCli ModelJson ModelInspect
  SpecEq SpecJson ProofYield ProofJson ProofJson2 ProofJson3.
Local Open Scope nat_scope.

Section Saved.
Variable uri_json : uri -> json.
Variable date_str : date -> str.
Variable uri_de : json -> option uri.
Variable date_de : str -> option date.
Hypothesis uri_back : forall u, uri_de (uri_json u) = Some u.
Hypothesis date_back : forall d, date_de (date_str d) = Some d.
Notation j_page := (j_page uri_json date_str).
Notation ser_page := (ser_page uri_json date_str).
Notation de_page := (de_page uri_de date_de).

Lemma read_begin p i x : ok_page p -> de_page (firstn i (ser_page p)) = Some x -> x = p /\ length (ser_page p) <= i.
Proof.
  unfold ModelJson.de_page, ModelJson.ser_page. intros O H. destruct (jread _) as [y|] eqn:E; [|discriminate].
  destruct (jread_begin _ i y E) as (W & -> & L). split; auto.
  assert (B := page_back uri_json date_str uri_de date_de uri_back date_back p O W). unfold ModelJson.j_page in *. congruence.
Qed.
Lemma read_iff p : ok_page p -> (de_page (ser_page p) = Some p <-> whole (j_page p) = true /\ jdepth (j_page p) <= 127).
Proof.
  intro O. split.
  - intro H. rewrite <- (firstn_all (ser_page p)) in H. unfold ModelJson.de_page, ModelJson.ser_page in H.
    destruct (jread _) as [y|] eqn:E; [|discriminate]. pose proof (jread_depth _ _ E) as D.
    destruct (jread_begin _ _ y E) as (W & -> & L). split; [exact W|]. apply le_S_n. exact D.
  - intros [W D]. unfold ModelJson.de_page, ModelJson.ser_page. rewrite jread_whole by (auto; lia).
    apply page_back; auto.
Qed.
End Saved.

Lemma within_whole x j : within x j -> whole j = true -> whole x = true.
Proof.
  induction 1 as [|l y I _ IH|fs k y I _ IH]; auto; intro W; apply IH; cbn [whole] in W; rewrite forallb_forall in W.
  - auto.
  - exact (W _ I).
Qed.

Section Ast.
Variable uri_json : uri -> json.
Variable date_str : date -> str.
Variable path_str : path -> option str.
Hypothesis uri_whole : forall u, whole (uri_json u) = true.
Notation j_ast := (j_ast uri_json date_str path_str).

Lemma path_whole p : whole (j_path path_str p) = true <-> path_str p <> None.
Proof. unfold j_path. destruct (path_str p); cbn; split; congruence. Qed.
Lemma ast_whole a : whole (j_ast a) = true <->
  (forall p, In p (loaded_pages a) -> ~ page_defs p) /\ (forall p, In p (loaded_paths a) -> path_str p <> None).
Proof.
  unfold ModelInspect.j_ast. rewrite obj1, whole_map.
  assert (F : forall f, whole (j_file uri_json date_str path_str f) = true <-> path_str (wf_path f) <> None /\ ~ page_defs (wf_data f)).
  { intro f. unfold j_file. cbn [whole forallb jpair snd]. rewrite !andb_true_iff, path_whole, (page_whole uri_json date_str uri_whole). tauto. }
  assert (V : forall w, whole (j_ast_wiki uri_json date_str path_str w) = true <->
     path_str (aw_path w) <> None /\ forall f, In f (aw_files w) -> path_str (wf_path f) <> None /\ ~ page_defs (wf_data f)).
  { intro w. unfold j_ast_wiki.
    change (whole (jnat (aw_index w)) && (whole (jopt JStr (aw_name w)) && (whole (j_path path_str (aw_path w)) &&
      (whole (JArr (map (j_file uri_json date_str path_str) (aw_files w))) && true))) = true <->
      path_str (aw_path w) <> None /\ forall f, In f (aw_files w) -> path_str (wf_path f) <> None /\ ~ page_defs (wf_data f)).
    rewrite !andb_true_iff, path_whole, whole_map. split.
    - intros (_ & _ & A & B & _). split; auto. intros f I. now apply F, B.
    - intros [A B]. repeat split; auto; [now destruct (aw_name w)|]. intros f I. now apply F, B. }
  unfold loaded_pages, loaded_paths. split.
  - intro H. split; intros p I; apply in_flat_map in I as (w & I & J).
    + apply in_map_iff in J as (f & <- & J). apply H, V in I. now apply I.
    + apply H, V in I. destruct J as [<-|J]; [apply I|]. apply in_map_iff in J as (f & <- & J). now apply I.
  - intros [A B] w I. apply V. split; [apply B, in_flat_map; exists w; split; auto; now left|].
    intros f J. split.
    + apply B, in_flat_map. exists w. split; auto. right. now apply in_map.
    + apply A, in_flat_map. exists w. split; auto. now apply in_map.
Qed.
End Ast.
