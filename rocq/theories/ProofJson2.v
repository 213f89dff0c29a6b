(** Elements and their JSON values: what was written for an element is read as
    that element. *)
From Coq Require Import Nnat.
From Verif Require Import Base ModelSpan ModelAst ModelLink ModelElem ModelJson SpecEq.
From Verif Require Import ProofTree ProofJson.
From Verif Require ProofEq.

(** * Depths *)

Lemma arr_depth l x : In x l -> jdepth x < jdepth (JArr l).
Proof.
  cbn [jdepth]. induction l as [|y l IH]; intros []; cbn [fold_right].
  - subst. lia.
  - specialize (IH H). lia.
Qed.
Lemma obj_depth fs k x : In (k, x) fs -> jdepth x < jdepth (JObj fs).
Proof.
  cbn [jdepth]. induction fs as [|y l IH]; intros []; cbn [fold_right].
  - subst. cbn [snd]. lia.
  - specialize (IH H). lia.
Qed.
Lemma tag_depth t d : jdepth (jtag t d) = S (jdepth d).
Proof. cbn. lia. Qed.
Lemma whole_arr l x : whole (JArr l) = true -> In x l -> whole x = true.
Proof. cbn [whole]. rewrite forallb_forall. auto. Qed.
Lemma whole_obj fs k x : whole (JObj fs) = true -> In (k, x) fs -> whole x = true.
Proof. cbn [whole]. rewrite forallb_forall. intros H I. exact (H _ I). Qed.

(** * Small parts *)

Lemma d_nat_j n : d_nat (jnat n) = Some n.
Proof. unfold d_nat, jnat. cbn [d_num option_map]. now rewrite Nat2N.id. Qed.
Lemma d_region_j r : d_region (jregion r) = Some r.
Proof.
  destruct r as [o l d]. change (d_region (jregion (Region o l d))) with
    (match d_nat (jnat o), d_nat (jnat l), d_nat (jnat d) with Some o, Some l, Some d => Some (Region o l d) | _, _, _ => None end).
  now rewrite !d_nat_j.
Qed.
Lemma all_some_ok {A} (f : json -> option A) (g : A -> json) l : (forall x, In x l -> f (g x) = Some x) ->
  all_some (map f (map g l)) = Some l.
Proof.
  induction l as [|x l IH]; intro H; [reflexivity|]. cbn [map all_some]. rewrite H by (now left).
  rewrite IH; [reflexivity|]. intros y I. apply H. now right.
Qed.
Lemma d_list_ok {A} (f : json -> option A) (g : A -> json) l : (forall x, In x l -> f (g x) = Some x) ->
  d_list f (JArr (map g l)) = Some l.
Proof. apply all_some_ok. Qed.
Lemma d_strs_j l : d_list d_str (jstrs l) = Some l.
Proof. apply d_list_ok. reflexivity. Qed.

Lemma map_insert_new k v m : ~ In k (map fst m) -> map_insert k v m = m ++ [(k, v)].
Proof.
  induction m as [|[k' v'] m IH]; cbn [map_insert map fst In app]; intro H; [reflexivity|].
  destruct (str_eqb k k') eqn:E; [apply str_eqb_eq in E; subst; tauto|]. rewrite IH; tauto.
Qed.
Lemma collect_same m : keyed m -> collect_map m = m.
Proof.
  unfold collect_map. intro N. change m with ([] ++ m) at 2. unfold keyed in N. change m with ([] ++ m) in N.
  generalize dependent (@nil (str * str)). induction m as [|[k v] m IH]; intros acc N; cbn [fold_left fst snd]; [now rewrite app_nil_r|].
  assert (K : ~ In k (map fst acc)).
  { rewrite map_app in N. cbn [map fst] in N. apply NoDup_remove_2 in N. intro I. apply N. apply in_or_app. now left. }
  rewrite (map_insert_new _ _ _ K). rewrite (IH (acc ++ [(k, v)])); rewrite <- app_assoc; auto.
Qed.
Lemma pos_insert_new k v m : ~ In k (map fst m) -> pos_insert k v m = m ++ [(k, v)].
Proof.
  induction m as [|[k' v'] m IH]; cbn [pos_insert map fst In app]; intro H; [reflexivity|].
  destruct (cellpos_eqb k k') eqn:E.
  - unfold cellpos_eqb in E. apply andb_true_iff in E as [E1 E2]. apply Nat.eqb_eq in E1, E2. destruct k, k'. cbn in *. subst. tauto.
  - rewrite IH; tauto.
Qed.
Lemma pos_collect_same m : keyed m -> pos_collect m = m.
Proof.
  unfold pos_collect. intro N. change m with ([] ++ m) at 2. unfold keyed in N. change m with ([] ++ m) in N.
  generalize dependent (@nil (cellpos * located cell)). induction m as [|[k v] m IH]; intros acc N; cbn [fold_left fst snd]; [now rewrite app_nil_r|].
  assert (K : ~ In k (map fst acc)).
  { rewrite map_app in N. cbn [map fst] in N. apply NoDup_remove_2 in N. intro I. apply N. apply in_or_app. now left. }
  rewrite (pos_insert_new _ _ _ K). rewrite (IH (acc ++ [(k, v)])); rewrite <- app_assoc; auto.
Qed.
Lemma d_map_j m : keyed m -> d_map (jmap m) = Some m.
Proof.
  intro K. unfold d_map, jmap. rewrite map_map. cbn [fst snd d_str option_map].
  assert (all_some (map (fun x : str * str => Some (fst x, snd x)) m) = Some m) as ->.
  { clear. induction m as [|[k v] m IH]; [reflexivity|]. cbn [map all_some]. now rewrite IH. }
  cbn [option_map]. now rewrite collect_same.
Qed.

(** * Located elements *)

Lemma flat_obj (j : json) r : fields "region" j = Some [] -> need "region" d_region (jflat j r) = Some r.
Proof.
  unfold need, fields. destruct j as [| | | | |fs|]; try discriminate. cbn [jflat]. rewrite filter_app, map_app.
  intros [= E]. rewrite E. apply (d_region_j r).
Qed.
Lemma d_loc_j {A} (f : json -> option A) (g : A -> json) x : fields "region" (g (l_val x)) = Some [] ->
  f (jloc g x) = Some (l_val x) -> d_loc f (jloc g x) = Some x.
Proof.
  intros R H. unfold d_loc. rewrite H. unfold jloc. rewrite flat_obj by auto. now destruct x.
Qed.
Lemma jloc_whole {A} (g : A -> json) x : whole (jloc g x) = true -> whole (g (l_val x)) = true.
Proof.
  unfold jloc, jflat. destruct (g (l_val x)) as [| | | | |fs|]; try discriminate. cbn [whole].
  rewrite forallb_app. intro H. now apply andb_true_iff in H.
Qed.
Lemma jloc_depth {A} (g : A -> json) x : jdepth (g (l_val x)) <= jdepth (jloc g x) \/ whole (jloc g x) = false.
Proof.
  unfold jloc, jflat. destruct (g (l_val x)) as [| | | | |fs|]; auto. left. cbn [jdepth]. apply le_n_S.
  induction fs as [|y fs IH]; cbn [fold_right app]; lia.
Qed.

Section Back.
Variable uri_json : uri -> json.
Variable date_str : date -> str.
Variable uri_de : json -> option uri.
Variable date_de : str -> option date.
Hypothesis uri_back : forall u, uri_de (uri_json u) = Some u.
Hypothesis date_back : forall d, date_de (date_str d) = Some d.

Notation j_desc := (j_desc uri_json).
Notation j_link_data := (j_link_data uri_json).
Notation j_link := (j_link uri_json date_str).
Notation j_dcontent := (j_dcontent uri_json date_str).
Notation j_inline := (j_inline uri_json date_str).
Notation j_cont := (j_cont uri_json date_str).
Notation j_block := (j_block uri_json date_str).
Notation j_item := (j_item uri_json date_str).
Notation d_desc := (d_desc uri_de).
Notation d_link_data := (d_link_data uri_de).
Notation d_link := (d_link uri_de date_de).
Notation d_dcontent := (d_dcontent uri_de date_de).
Notation d_inline := (d_inline uri_de date_de).
Notation d_cont := (d_cont uri_de date_de).
Notation d_block := (d_block uri_de date_de).
Notation d_item := (d_item uri_de date_de).

Lemma may_j {A} k (g : A -> json) (f : json -> option A) (x : option A) j :
  fields k j = Some [jopt g x] -> (forall a, x = Some a -> f (g a) = Some a /\ g a <> JNull) ->
  may k f j = Some x.
Proof.
  intros E H. unfold may. rewrite E. destruct x as [a|]; [|reflexivity]. destruct (H a eq_refl) as [E' N]. cbn [jopt]. revert E' N.
  destruct (g a); intros E' N; try rewrite E'; congruence.
Qed.

Lemma data_back f :
  (forall x, ok_desc x -> jdepth (j_desc x) <= f -> d_desc f (j_desc x) = Some x) /\
  (forall x, ok_data x -> jdepth (j_link_data x) <= f -> d_link_data f (j_link_data x) = Some x).
Proof.
  induction f as [|f [ID IL]]; split; intros x O L.
  - destruct x; cbn in L; lia.
  - destruct x; cbn in L; lia.
  - destruct x as [t|d].
    + reflexivity.
    + change (j_desc (DescTransclusion d)) with (jtag "transclusion_link" (j_link_data d)) in *. rewrite tag_depth in L.
      change (d_desc (S f) (jtag "transclusion_link" (j_link_data d))) with (option_map DescTransclusion (d_link_data f (j_link_data d))).
      rewrite IL by (auto; lia). reflexivity.
  - destruct x as [u x p]. destruct O as [O1 O2].
    set (j := j_link_data (LinkData u x p)) in *.
    change (match need "uri_ref" uri_de j, may "description" (d_desc f) j, may "properties" d_map j with
      | Some u, Some x, Some p => Some (LinkData u x p)
      | _, _, _ => None
      end = Some (LinkData u x p)).
    change (need "uri_ref" uri_de j) with (uri_de (uri_json u)). rewrite uri_back.
    rewrite (may_j "description" j_desc _ x), (may_j "properties" jmap _ p); try reflexivity.
    + intros m ->. split; [now apply d_map_j|]. destruct m; discriminate.
    + intros y ->. split; [|destruct y; discriminate]. apply ID; auto.
      assert (jdepth (j_desc y) < jdepth (j_link_data (LinkData u (Some y) p))) by (eapply obj_depth; right; left; reflexivity).
      subst j. lia.
Qed.
Lemma link_back f l : ok_link l -> jdepth (j_link l) <= f -> d_link f (j_link l) = Some l.
Proof.
  intros O L. destruct (data_back f) as [_ IL]. unfold ok_link in O.
  assert (K : jdepth (j_link_data (link_get_data l)) <= f).
  { apply Nat.lt_le_incl. eapply Nat.lt_le_trans; [|exact L].
    destruct l as [d|i d|n d|dt d|d|d]; cbn [ModelJson.j_link link_get_data]; rewrite tag_depth;
      apply Nat.lt_lt_succ_r; eapply obj_depth; first [left; reflexivity|right; left; reflexivity]. }
  specialize (IL _ O K). destruct l as [d|i d|n d|dt d|d|d]; cbn [link_get_data] in *.
  - change (option_map LWiki (d_link_data f (j_link_data d)) = Some (LWiki d)). now rewrite IL.
  - change (option_map (LIndexed i) (d_link_data f (j_link_data d)) = Some (LIndexed i d)). now rewrite IL.
  - change (option_map (LNamed n) (d_link_data f (j_link_data d)) = Some (LNamed n d)). now rewrite IL.
  - change (match date_de (date_str dt) with Some t => option_map (LDiary t) (d_link_data f (j_link_data d)) | None => None end = Some (LDiary dt d)).
    now rewrite date_back, IL.
  - change (option_map LRaw (d_link_data f (j_link_data d)) = Some (LRaw d)). now rewrite IL.
  - change (option_map LTransclusion (d_link_data f (j_link_data d)) = Some (LTransclusion d)). now rewrite IL.
Qed.
Lemma keyword_back k : d_keyword (j_keyword k) = Some k.
Proof. destruct k; reflexivity. Qed.
Lemma deco_back {A} (f : json -> option A) (g : A -> json) k cs : (forall x, In x cs -> d_loc f (jloc g x) = Some x) ->
  d_deco f (jtag (deco_name k) (JArr (map (jloc g) cs))) = Some (k, cs).
Proof.
  intro H. apply d_list_ok in H. destruct k;
    match goal with |- d_deco f (jtag (deco_name ?k) ?j) = _ => change (option_map (pair k) (d_list (d_loc f) j) = Some (k, cs)) end;
    now rewrite H.
Qed.

(** [f] reads what [g] writes, within the given depth. *)
Definition loc_back {A} (f : json -> option A) (g : A -> json) (n : nat) (x : located A) : Prop :=
  whole (jloc g x) = true -> jdepth (jloc g x) <= n -> d_loc f (jloc g x) = Some x.
Lemma locs_back {A} (f : json -> option A) (g : A -> json) n cs :
  (forall x, In x cs -> loc_back f g n x) ->
  whole (JArr (map (jloc g) cs)) = true -> jdepth (JArr (map (jloc g) cs)) <= S n ->
  d_list (d_loc f) (JArr (map (jloc g) cs)) = Some cs.
Proof.
  intros H W L. apply d_list_ok. intros x I. apply (in_map (jloc g)) in I as I'. apply H; auto.
  - exact (whole_arr _ _ W I').
  - pose proof (arr_depth _ _ I'). lia.
Qed.

Lemma whole_tag t d : whole (jtag t d) = whole d.
Proof. cbn. apply andb_true_r. Qed.
Lemma dcontent_region c : fields "region" (j_dcontent c) = Some [].
Proof. destruct c; reflexivity. Qed.
Lemma dcontent_obj c : exists fs, j_dcontent c = JObj fs.
Proof. destruct c; eexists; reflexivity. Qed.
Lemma loc_whole_depth {A} (g : A -> json) x : whole (jloc g x) = true -> whole (g (l_val x)) = true /\ jdepth (g (l_val x)) <= jdepth (jloc g x).
Proof. intro W. split; [now apply jloc_whole|]. destruct (jloc_depth g x); congruence. Qed.

Lemma dcontent_back f : forall x, ok_dc (l_val x) -> loc_back (d_dcontent f) j_dcontent f x.
Proof.
  induction f as [|f IH]; intros [c r] O W L; destruct (loc_whole_depth _ _ W) as [Wc Lc]; cbn [l_val] in *.
  { destruct (dcontent_obj c) as [fs E]. rewrite E in Lc. cbn [jdepth] in Lc. lia. }
  apply d_loc_j; [apply dcontent_region|]. cbn [l_val]. destruct c as [t|k cs|k|l].
  - reflexivity.
  - change (d_dcontent (S f) (jloc j_dcontent (Loc (DCDeco k cs) r))) with
      (option_map (fun x => DCDeco (fst x) (snd x)) (d_deco (d_dcontent f) (jtag (deco_name k) (JArr (map (jloc j_dcontent) cs))))).
    change (j_dcontent (DCDeco k cs)) with (jtag "decorated_text" (jtag (deco_name k) (JArr (map (jloc j_dcontent) cs)))) in *.
    rewrite !whole_tag in Wc. rewrite !tag_depth in Lc.
    rewrite deco_back; [reflexivity|]. intros x I. apply (in_map (jloc j_dcontent)) in I as I'. apply IH.
    + cbn [ok_dc] in O. revert I O. clear. induction cs; cbn; [tauto|]. intros [->|I] [H1 H2]; auto.
    + exact (whole_arr _ _ Wc I').
    + pose proof (arr_depth _ _ I'). lia.
  - change (option_map DCKeyword (d_keyword (j_keyword k)) = Some (DCKeyword k)). now rewrite keyword_back.
  - change (option_map DCLink (d_link f (j_link l)) = Some (DCLink l)).
    change (j_dcontent (DCLink l)) with (jtag "link" (j_link l)) in *. rewrite tag_depth in Lc.
    rewrite link_back; auto. lia.
Qed.
Lemma comment_back c : d_comment (j_comment c) = Some c.
Proof.
  destruct c as [t|ls]; [reflexivity|]. change (option_map CMulti (d_list d_str (jstrs ls)) = Some (CMulti ls)). now rewrite d_strs_j.
Qed.
Lemma inline_back f x : ok_inline (l_val x) -> loc_back (d_inline f) j_inline f x.
Proof.
  destruct x as [i r]. intros O W L. destruct (loc_whole_depth _ _ W) as [Wc Lc]; cbn [l_val] in *.
  apply d_loc_j; [destruct i; reflexivity|]. cbn [l_val]. destruct i as [t|k cs|k|l|ts|t|t|c]; try reflexivity.
  - change (d_inline f (jloc j_inline (Loc (IDeco k cs) r))) with
      (option_map (fun x => IDeco (fst x) (snd x)) (d_deco (d_dcontent f) (jtag (deco_name k) (JArr (map (jloc j_dcontent) cs))))).
    change (j_inline (IDeco k cs)) with (jtag "decorated_text" (jtag (deco_name k) (JArr (map (jloc j_dcontent) cs)))) in *.
    rewrite !whole_tag in Wc. rewrite !tag_depth in Lc.
    rewrite deco_back; [reflexivity|]. intros x I. apply (in_map (jloc j_dcontent)) in I as I'. apply dcontent_back.
    + cbn [ok_inline] in O. revert I O. clear. induction cs; cbn; [tauto|]. intros [->|I] [H1 H2]; auto.
    + exact (whole_arr _ _ Wc I').
    + pose proof (arr_depth _ _ I'). lia.
  - change (option_map IKeyword (d_keyword (j_keyword k)) = Some (IKeyword k)). now rewrite keyword_back.
  - change (option_map ILink (d_link f (j_link l)) = Some (ILink l)).
    change (j_inline (ILink l)) with (jtag "link" (j_link l)) in *. rewrite tag_depth in Lc.
    rewrite link_back; auto. lia.
  - change (option_map ITags (d_list d_str (jstrs ts)) = Some (ITags ts)). now rewrite d_strs_j.
  - change (option_map IComment (d_comment (j_comment c)) = Some (IComment c)). now rewrite comment_back.
Qed.
Lemma all_In {A} (P : A -> Prop) l x : all P l -> In x l -> P x.
Proof. induction l as [|y l IH]; cbn; [tauto|]. intros [H1 H2] [->|I]; auto. Qed.
Lemma cont_back f c : ok_cont c -> whole (j_cont c) = true -> jdepth (j_cont c) <= f -> d_cont f (j_cont c) = Some c.
Proof.
  intros O W L. change (d_list (d_loc (d_inline f)) (JArr (map (jloc j_inline) c)) = Some c).
  apply locs_back with (n := f).
  - intros x I. apply inline_back. exact (all_In _ _ _ O I).
  - eapply whole_obj; [exact W|left; reflexivity].
  - assert (jdepth (JArr (map (jloc j_inline) c)) < jdepth (j_cont c)) by (eapply obj_depth; left; reflexivity). lia.
Qed.

Notation j_header := (j_header uri_json date_str).
Notation j_table := (j_table uri_json date_str).
Notation j_cell := (j_cell uri_json date_str).
Notation j_placeholder := (j_placeholder date_str).
Notation j_term_defs := (j_term_defs uri_json date_str).
Notation d_header := (d_header uri_de date_de).
Notation d_table := (d_table uri_de date_de).
Notation d_cell := (d_cell uri_de date_de).
Notation d_placeholder := (d_placeholder date_de).

Lemma header_back f h : ok_cont (h_content h) -> whole (j_header h) = true -> jdepth (j_header h) <= f ->
  d_header f (j_header h) = Some h.
Proof.
  destruct h as [c l b]. cbn [h_content]. intros O W L.
  change (match d_cont f (j_cont c), d_nat (jnat l), Some b with Some c, Some l, Some b => Some (Header c l b) | _, _, _ => None end = Some (Header c l b)).
  rewrite cont_back, d_nat_j; auto.
  - eapply whole_obj; [exact W|left; reflexivity].
  - assert (jdepth (j_cont c) < jdepth (j_header (Header c l b))) by (eapply obj_depth; left; reflexivity). lia.
Qed.
Lemma placeholder_back p : d_placeholder (j_placeholder p) = Some p.
Proof.
  destruct p as [t| |t|d|n v]; try reflexivity.
  change (option_map PDate (date_de (date_str d)) = Some (PDate d)). now rewrite date_back.
Qed.
Lemma code_back c : keyed (cb_meta c) -> d_code (j_code c) = Some c.
Proof.
  destruct c as [l m ls]. cbn [cb_meta]. intro K. set (j := j_code (CodeBlock l m ls)).
  change (match may "language" d_str j, d_map (jmap m), d_list d_str (jstrs ls) with Some l, Some m, Some ls => Some (CodeBlock l m ls) | _, _, _ => None end = Some (CodeBlock l m ls)).
  rewrite (may_j "language" JStr _ l), d_map_j, d_strs_j; auto. intros a _. split; [reflexivity|discriminate].
Qed.
Lemma math_back m : d_math (j_math m) = Some m.
Proof.
  destruct m as [ls e]. set (j := j_math (MathBlock ls e)).
  change (match d_list d_str (jstrs ls), may "environment" d_str j with Some ls, Some e => Some (MathBlock ls e) | _, _ => None end = Some (MathBlock ls e)).
  rewrite (may_j "environment" JStr _ e), d_strs_j; auto. intros a _. split; [reflexivity|discriminate].
Qed.
Lemma cell_back f x : ok_cell (l_val x) -> loc_back (d_cell f) j_cell f x.
Proof.
  destruct x as [c r]. intros O W L. destruct (loc_whole_depth _ _ W) as [Wc Lc]; cbn [l_val] in *.
  apply d_loc_j; [destruct c; reflexivity|]. cbn [l_val]. destruct c as [c|[]|[]]; try reflexivity.
  change (option_map CContent (d_cont f (j_cont c)) = Some (CContent c)).
  change (j_cell (CContent c)) with (jtag "content" (j_cont c)) in *. rewrite whole_tag in Wc. rewrite tag_depth in Lc.
  rewrite cont_back; auto. lia.
Qed.
Lemma cellpos_back p : d_cellpos (j_cellpos p) = Some p.
Proof.
  destruct p as [r c]. change (match d_nat (jnat r), d_nat (jnat c) with Some r, Some c => Some (CellPos r c) | _, _ => None end = Some (CellPos r c)).
  now rewrite !d_nat_j.
Qed.
Lemma table_back f t : ok_table t -> whole (j_table t) = true -> jdepth (j_table t) <= f -> d_table f (j_table t) = Some t.
Proof.
  destruct t as [cs r c b]. intros (K & _ & O) W L. cbn [t_cells] in *.
  set (e := fun kv => JArr [j_cellpos (fst kv); jloc j_cell (snd kv)]).
  change (match d_list (d_entry uri_de date_de f) (JArr (map e cs)), d_nat (jnat r), d_nat (jnat c), Some b with
    | Some cs, Some r, Some c, Some b => Some (Table (pos_collect cs) r c b)
    | _, _, _, _ => None
    end = Some (Table cs r c b)).
  rewrite !d_nat_j.
  assert (Wa : whole (JArr (map e cs)) = true) by (eapply whole_obj; [exact W|left; reflexivity]).
  assert (La : jdepth (JArr (map e cs)) < jdepth (j_table (Table cs r c b))) by (eapply obj_depth; left; reflexivity).
  rewrite d_list_ok; [now rewrite pos_collect_same|]. intros [k x] I. apply (in_map e) in I as I'.
  pose proof (whole_arr _ _ Wa I') as We. pose proof (arr_depth _ _ I') as Le. subst e. cbn [fst snd] in *.
  change (match d_cellpos (j_cellpos k), d_loc (d_cell f) (jloc j_cell x) with Some k, Some v => Some (k, v) | _, _ => None end = Some (k, x)).
  rewrite cellpos_back.
  assert (Iv : In (jloc j_cell x) [j_cellpos k; jloc j_cell x]) by (right; now left).
  rewrite cell_back; auto.
  - exact (all_In _ _ _ O I).
  - exact (whole_arr _ _ We Iv).
  - pose proof (arr_depth _ _ Iv). lia.
Qed.
Lemma item_ty_back t : d_item_ty (j_item_ty t) = Some t.
Proof. destruct t as [[]|[]]; reflexivity. Qed.
Lemma suffix_back s : unit_enum suffix_name [SufNone; SufPeriod; SufParen] (junit (suffix_name s)) = Some s.
Proof. destruct s; reflexivity. Qed.
Lemma todo_back t : d_todo (j_todo t) = Some t.
Proof. destruct t; reflexivity. Qed.
Lemma defs_stop t : whole (jloc j_term_defs t) = false.
Proof.
  destruct t as [[t [ds r']] r0]. destruct (whole _) eqn:W; auto. apply loc_whole_depth in W as [W _].
  symmetry. refine (whole_obj _ (bs "definitions") JStop W _). right. left. reflexivity.
Qed.

Lemma block_obj b : exists fs, j_block b = JObj fs.
Proof. destruct b; eexists; reflexivity. Qed.
Lemma item_obj i : exists fs, j_item i = JObj fs.
Proof. destruct i; eexists; reflexivity. Qed.
Lemma block_region b : fields "region" (j_block b) = Some [].
Proof. destruct b; reflexivity. Qed.
Lemma item_region i : fields "region" (j_item i) = Some [].
Proof. destruct i; reflexivity. Qed.

Lemma block_back f :
  (forall x, ok_block (l_val x) -> loc_back (d_block f) j_block f x) /\
  (forall x, ok_item (l_val x) -> loc_back (d_item f) j_item f x).
Proof.
  induction f as [|f [IB II]]; split; intros [b r] O W L; destruct (loc_whole_depth _ _ W) as [Wc Lc]; cbn [l_val] in *.
  - destruct (block_obj b) as [fs E]. rewrite E in Lc. cbn [jdepth] in Lc. lia.
  - destruct (item_obj b) as [fs E]. rewrite E in Lc. cbn [jdepth] in Lc. lia.
  - apply d_loc_j; [apply block_region|]. cbn [l_val].
    destruct b as [ls|d| |h|items|m|ls|p|c|t]; try reflexivity.
    + change (option_map BBlockquote (d_list d_str (jstrs ls)) = Some (BBlockquote ls)). now rewrite d_strs_j.
    + assert (d = []) as ->.
      { destruct d as [|t d]; auto. exfalso.
        change (j_block (BDefList (t :: d))) with (jtag "definition_list" (JObj [jpair "items" (JArr (map (jloc j_term_defs) (t :: d)))])) in Wc.
        rewrite whole_tag in Wc. cbn [whole forallb jpair snd map] in Wc. rewrite defs_stop in Wc. discriminate. }
      reflexivity.
    + change (option_map BHeader (d_header f (j_header h)) = Some (BHeader h)).
      change (j_block (BHeader h)) with (jtag "header" (j_header h)) in *. rewrite whole_tag in Wc. rewrite tag_depth in Lc.
      rewrite header_back; auto. lia.
    + change (option_map BList (d_list (d_loc (d_item f)) (JArr (map (jloc j_item) items))) = Some (BList items)).
      change (j_block (BList items)) with (jtag "list" (JObj [jpair "items" (JArr (map (jloc j_item) items))])) in *.
      rewrite whole_tag in Wc. rewrite tag_depth in Lc.
      assert (jdepth (JArr (map (jloc j_item) items)) < jdepth (JObj [jpair "items" (JArr (map (jloc j_item) items))])) by (eapply obj_depth; left; reflexivity).
      rewrite (locs_back _ _ f); [reflexivity| | |lia].
      * intros x I. apply II. change (all (fun x => ok_item (l_val x)) items) in O. exact (all_In _ _ _ O I).
      * eapply whole_obj; [exact Wc|left; reflexivity].
    + change (option_map BMath (d_math (j_math m)) = Some (BMath m)). now rewrite math_back.
    + change (option_map BParagraph (d_list (d_cont f) (JArr (map j_cont ls))) = Some (BParagraph ls)).
      change (j_block (BParagraph ls)) with (jtag "paragraph" (JObj [jpair "lines" (JArr (map j_cont ls))])) in *.
      rewrite whole_tag in Wc. rewrite tag_depth in Lc.
      assert (jdepth (JArr (map j_cont ls)) < jdepth (JObj [jpair "lines" (JArr (map j_cont ls))])) by (eapply obj_depth; left; reflexivity).
      assert (Wa : whole (JArr (map j_cont ls)) = true) by (eapply whole_obj; [exact Wc|left; reflexivity]).
      rewrite d_list_ok; [reflexivity|]. intros x I. apply (in_map j_cont) in I as I'. apply cont_back.
      * change (all ok_cont ls) in O. exact (all_In _ _ _ O I).
      * exact (whole_arr _ _ Wa I').
      * pose proof (arr_depth _ _ I'). lia.
    + change (option_map BPlaceholder (d_placeholder (j_placeholder p)) = Some (BPlaceholder p)). now rewrite placeholder_back.
    + change (option_map BCode (d_code (j_code c)) = Some (BCode c)). now rewrite code_back.
    + change (option_map BTable (d_table f (j_table t)) = Some (BTable t)).
      change (j_block (BTable t)) with (jtag "table" (j_table t)) in *. rewrite whole_tag in Wc. rewrite tag_depth in Lc.
      rewrite table_back; auto. lia.
  - apply d_loc_j; [apply item_region|]. cbn [l_val].
    destruct b as [ty suf pos cs todo].
    change (match d_item_ty (j_item_ty ty), unit_enum suffix_name [SufNone; SufPeriod; SufParen] (junit (suffix_name suf)),
            d_nat (jnat pos), d_list (d_loc (d_block f)) (JArr (map (jloc j_block) cs)),
            may "todo_status" d_todo (JObj [jpair "todo_status" (jopt j_todo todo)]) with
      | Some t, Some s, Some p, Some c, Some a => Some (ListItem t s p c a)
      | _, _, _, _, _ => None
      end = Some (ListItem ty suf pos cs todo)).
    assert (Wa : whole (JArr (map (jloc j_block) cs)) = true) by (eapply whole_obj; [exact Wc|do 3 right; left; reflexivity]).
    assert (La : jdepth (JArr (map (jloc j_block) cs)) < jdepth (j_item (ListItem ty suf pos cs todo))) by (eapply obj_depth; do 3 right; left; reflexivity).
    rewrite item_ty_back, suffix_back, d_nat_j, (locs_back _ _ f), (may_j "todo_status" j_todo _ todo); auto; [| |lia].
    + intros t _. split; [apply todo_back|destruct t; discriminate].
    + intros x I. apply IB. change (all (fun x => ok_block (l_val x)) cs) in O. exact (all_In _ _ _ O I).
Qed.

Notation j_page := (j_page uri_json date_str).
Notation d_page := (d_page uri_de date_de).
Lemma page_back p : ok_page p -> whole (j_page p) = true -> d_page (j_page p) = Some p.
Proof.
  intros O W. set (n := jdepth (j_page p)).
  change (d_list (d_loc (d_block n)) (JArr (map (jloc j_block) p)) = Some p).
  apply locs_back with (n := n).
  - intros x I. apply (proj1 (block_back n)). exact (all_In _ _ _ O I).
  - eapply whole_obj; [exact W|left; reflexivity].
  - assert (jdepth (JArr (map (jloc j_block) p)) < n) by (eapply obj_depth; left; reflexivity). lia.
Qed.
End Back.
