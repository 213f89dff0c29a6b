(** Which pages are written completely and how deep their text is nested. *)
From Verif Require Import Base ModelSpan ModelAst ModelLink ModelElem ModelJson SpecEq SpecJson.
From Verif Require Import ProofTree ProofJson ProofJson2.

Lemma some_In {A} (P : A -> Prop) l : some P l <-> exists x, In x l /\ P x.
Proof.
  induction l as [|y l IH]; cbn [some In]; [split; [tauto|now intros (x & [] & _)]|]. rewrite IH. split.
  - intros [H|(x & I & H)]; eauto.
  - intros (x & [->|I] & H); eauto.
Qed.
Lemma whole_arr_iff l : whole (JArr l) = true <-> forall x, In x l -> whole x = true.
Proof. cbn [whole]. apply forallb_forall. Qed.
Lemma whole_map {A} (g : A -> json) l : whole (JArr (map g l)) = true <-> forall x, In x l -> whole (g x) = true.
Proof.
  rewrite whole_arr_iff. split.
  - intros H x I. apply H. now apply in_map.
  - intros H x I. apply in_map_iff in I as (y & <- & I). auto.
Qed.
Lemma obj1 k j : whole (JObj [jpair k j]) = whole j.
Proof. cbn. apply andb_true_r. Qed.
Lemma whole_strs l : whole (jstrs l) = true.
Proof. apply whole_map. reflexivity. Qed.
Lemma whole_jmap m : whole (jmap m) = true.
Proof. cbn [jmap whole]. rewrite forallb_forall. intros x I. apply in_map_iff in I as (y & <- & _). reflexivity. Qed.
Lemma jloc_whole_iff {A} (g : A -> json) x fs : g (l_val x) = JObj fs -> whole (jloc g x) = whole (g (l_val x)).
Proof. unfold jloc. intros ->. cbn [jflat whole]. rewrite forallb_app. cbn. apply andb_true_r. Qed.
Lemma map_depth {A} (g : A -> json) l n : (forall x, In x l -> jdepth (g x) <= n) -> jdepth (JArr (map g l)) <= S n.
Proof.
  intro H. cbn [jdepth]. apply le_n_S. induction l as [|x l IH]; cbn [map fold_right]; [lia|].
  apply Nat.max_lub; [apply H; now left|]. apply IH. intros y I. apply H. now right.
Qed.
Lemma strs_depth l : jdepth (jstrs l) <= 1.
Proof. apply map_depth. reflexivity. Qed.
Lemma jmap_depth m : jdepth (jmap m) <= 1.
Proof. cbn [jmap jdepth]. apply le_n_S. induction m as [|x m IH]; cbn [map fold_right jdepth snd]; lia. Qed.
Lemma loc_depth {A} (g : A -> json) x n fs : g (l_val x) = JObj fs -> jdepth (g (l_val x)) <= n -> 2 <= n -> jdepth (jloc g x) <= n.
Proof.
  unfold jloc. intros ->. cbn [jflat jdepth]. intros H N. destruct n as [|n]; [lia|]. apply le_S_n in H. apply le_n_S.
  induction fs as [|y fs IH]; cbn [app fold_right snd jpair] in *; [cbn; lia|]. apply Nat.max_lub; [lia|]. apply IH. lia.
Qed.

Lemma both_ind (P : block -> Prop) (Q : list_item -> Prop) :
  (forall b, (forall items, b <> BList items) -> P b) ->
  (forall items, Forall (fun x => Q (l_val x)) items -> P (BList items)) ->
  (forall ty suf pos cs todo, Forall (fun x => P (l_val x)) cs -> Q (ListItem ty suf pos cs todo)) ->
  (forall b, P b) /\ (forall i, Q i).
Proof.
  intros H1 H2 H3. assert (B : forall b, P b) by exact (block_ind' P Q H1 H2 H3).
  split; [exact B|]. intros [ty suf pos cs todo]. apply H3, Forall_forall. auto.
Qed.

Section Whole.
Variable uri_json : uri -> json.
Variable date_str : date -> str.
Hypothesis uri_whole : forall u, whole (uri_json u) = true.

Notation j_desc := (j_desc uri_json).
Notation j_link_data := (j_link_data uri_json).
Notation j_link := (j_link uri_json date_str).
Notation j_dcontent := (j_dcontent uri_json date_str).
Notation j_inline := (j_inline uri_json date_str).
Notation j_cont := (j_cont uri_json date_str).
Notation j_block := (j_block uri_json date_str).
Notation j_item := (j_item uri_json date_str).
Notation j_cell := (j_cell uri_json date_str).
Notation j_page := (j_page uri_json date_str).

Fixpoint desc_whole (x : description) : whole (j_desc x) = true
with data_whole (x : link_data) : whole (j_link_data x) = true.
Proof.
  - destruct x as [t|d]; [reflexivity|].
    change (j_desc (DescTransclusion d)) with (jtag "transclusion_link" (j_link_data d)). rewrite whole_tag. apply data_whole.
  - destruct x as [u x p].
    change (whole (uri_json u) && (whole (jopt j_desc x) && (whole (jopt jmap p) && true)) = true).
    rewrite uri_whole. destruct x as [x|], p as [p|]; cbn [jopt whole]; rewrite ?whole_jmap, ?desc_whole; reflexivity.
Qed.
Lemma link_whole l : whole (j_link l) = true.
Proof.
  destruct l as [d|i d|n d|dt d|d|d]; cbn [ModelJson.j_link]; rewrite whole_tag; cbn [whole forallb jpair snd jdate]; now rewrite data_whole.
Qed.
Lemma dcontent_whole c : whole (j_dcontent c) = true.
Proof.
  induction c as [t|k cs IH|k|l] using dcontent_ind'.
  - reflexivity.
  - change (j_dcontent (DCDeco k cs)) with (jtag "decorated_text" (jtag (deco_name k) (JArr (map (jloc j_dcontent) cs)))).
    rewrite !whole_tag. apply whole_map. intros x I. rewrite Forall_forall in IH.
    destruct (dcontent_obj uri_json date_str (l_val x)) as [fs E]. rewrite (jloc_whole_iff _ _ _ E). auto.
  - destruct k; reflexivity.
  - change (j_dcontent (DCLink l)) with (jtag "link" (j_link l)). rewrite whole_tag. apply link_whole.
Qed.
Lemma inline_obj i : exists fs, j_inline i = JObj fs.
Proof. destruct i; eexists; reflexivity. Qed.
Lemma inline_whole i : whole (j_inline i) = true.
Proof.
  destruct i as [t|k cs|k|l|ts|t|t|c]; try reflexivity; cbn [ModelJson.j_inline]; rewrite !whole_tag.
  - apply whole_map. intros x I. destruct (dcontent_obj uri_json date_str (l_val x)) as [fs E]. rewrite (jloc_whole_iff _ _ _ E). apply dcontent_whole.
  - apply link_whole.
  - apply whole_strs.
  - destruct c as [t|ls]; [reflexivity|]. cbn [j_comment]. rewrite whole_tag. apply whole_strs.
Qed.
Lemma cont_whole c : whole (j_cont c) = true.
Proof.
  unfold ModelJson.j_cont. rewrite obj1. apply whole_map. intros x _. destruct (inline_obj (l_val x)) as [fs E]. rewrite (jloc_whole_iff _ _ _ E). apply inline_whole.
Qed.
Lemma cell_whole c : whole (j_cell c) = true.
Proof. destruct c as [c|[]|[]]; try reflexivity. cbn [ModelJson.j_cell]. rewrite whole_tag. apply cont_whole. Qed.
Lemma cell_obj c : exists fs, j_cell c = JObj fs.
Proof. destruct c as [c|[]|[]]; eexists; reflexivity. Qed.

(** A page is written completely if and only if it has no definition list. *)
Lemma block_whole_tac b : (forall d, b <> BDefList d) -> (forall l, b <> BList l) -> whole (j_block b) = true.
Proof.
  intros ND NL. destruct b as [ls|d| |h|items|m|ls|p|c|t]; try reflexivity; try (now destruct (ND d)); try (now destruct (NL items)).
  - change (j_block (BBlockquote ls)) with (jtag "blockquote" (JObj [jpair "lines" (jstrs ls)])). rewrite whole_tag, obj1. apply whole_strs.
  - change (j_block (BHeader h)) with (jtag "header" (j_header uri_json date_str h)). rewrite whole_tag. unfold j_header.
    cbn [whole forallb jpair snd]. now rewrite cont_whole.
  - change (j_block (BMath m)) with (jtag "math_block" (j_math m)). rewrite whole_tag. unfold j_math.
    cbn [whole forallb jpair snd]. rewrite whole_strs. now destruct (mb_env m).
  - change (j_block (BParagraph ls)) with (jtag "paragraph" (JObj [jpair "lines" (JArr (map j_cont ls))])). rewrite whole_tag, obj1.
    apply whole_map. intros x _. apply cont_whole.
  - change (j_block (BPlaceholder p)) with (jtag "placeholder" (j_placeholder date_str p)). rewrite whole_tag. destruct p; reflexivity.
  - change (j_block (BCode c)) with (jtag "code_block" (j_code c)). rewrite whole_tag. unfold j_code.
    cbn [whole forallb jpair snd]. rewrite whole_strs, whole_jmap. now destruct (cb_lang c).
  - change (j_block (BTable t)) with (jtag "table" (j_table uri_json date_str t)). rewrite whole_tag. unfold j_table.
    set (e := fun kv => JArr [j_cellpos (fst kv); jloc j_cell (snd kv)]).
    assert (W : whole (JArr (map e (t_cells t))) = true).
    { apply whole_map. intros [k x] _. subst e. cbn [fst snd]. apply whole_arr_iff. intros y [<-|[<-|[]]]; [reflexivity|].
      destruct (cell_obj (l_val x)) as [fs E]. rewrite (jloc_whole_iff _ _ _ E). apply cell_whole. }
    change (whole (JArr (map e (t_cells t))) && true = true). now rewrite W.
Qed.
Lemma block_item_whole :
  (forall b, whole (j_block b) = true <-> ~ has_defs b) /\ (forall i, whole (j_item i) = true <-> ~ item_defs i).
Proof.
  assert (H1 : forall b, (forall items, b <> BList items) -> (whole (j_block b) = true <-> ~ has_defs b)).
  { intros b NL. destruct b as [ls|d| |h|items|m|ls|p|c|t]; try (rewrite block_whole_tac by discriminate; split; [intros _ []|reflexivity]).
    - destruct d as [|t d]; [split; [intros _ H; now apply H|reflexivity]|]. split; [|intro H; destruct H; discriminate].
      change (j_block (BDefList (t :: d))) with (jtag "definition_list" (JObj [jpair "items" (JArr (map (jloc (j_term_defs uri_json date_str)) (t :: d)))])).
      rewrite whole_tag, obj1. cbn [whole map forallb]. rewrite defs_stop. discriminate.
    - now destruct (NL items). }
  assert (H2 : forall items, Forall (fun x => whole (j_item (l_val x)) = true <-> ~ item_defs (l_val x)) items -> (whole (j_block (BList items)) = true <-> ~ has_defs (BList items))).
  { intros items F. rewrite Forall_forall in F.
    change (j_block (BList items)) with (jtag "list" (JObj [jpair "items" (JArr (map (jloc j_item) items))])).
    rewrite whole_tag, obj1, whole_map. change (has_defs (BList items)) with (some (fun x => item_defs (l_val x)) items). rewrite some_In.
    split.
    - intros H (x & I & D). revert D. apply F; auto. specialize (H x I).
      destruct (item_obj uri_json date_str (l_val x)) as [fs E]. now rewrite <- (jloc_whole_iff _ _ _ E).
    - intros N x I. destruct (item_obj uri_json date_str (l_val x)) as [fs E]. rewrite (jloc_whole_iff _ _ _ E). apply F; auto. intro D. apply N. eauto. }
  assert (H3 : forall ty suf pos cs todo, Forall (fun x => whole (j_block (l_val x)) = true <-> ~ has_defs (l_val x)) cs ->
    (whole (j_item (ListItem ty suf pos cs todo)) = true <-> ~ item_defs (ListItem ty suf pos cs todo))).
  { intros ty suf pos cs todo F. rewrite Forall_forall in F.
    assert (W : whole (j_item (ListItem ty suf pos cs todo)) = whole (JArr (map (jloc j_block) cs))).
    { change (whole (j_item (ListItem ty suf pos cs todo))) with
        (whole (j_item_ty ty) && (true && (true && (whole (JArr (map (jloc j_block) cs)) && (whole (jopt j_todo todo) && true && true))))).
      destruct ty as [[]|[]], todo; cbn [jopt]; now rewrite ?andb_true_r. }
    rewrite W, whole_map. change (item_defs (ListItem ty suf pos cs todo)) with (some (fun x => has_defs (l_val x)) cs). rewrite some_In.
    split.
    - intros H (x & I & D). revert D. apply F; auto. specialize (H x I).
      destruct (block_obj uri_json date_str (l_val x)) as [fs E]. now rewrite <- (jloc_whole_iff _ _ _ E).
    - intros N x I. destruct (block_obj uri_json date_str (l_val x)) as [fs E]. rewrite (jloc_whole_iff _ _ _ E). apply F; auto. intro D. apply N. eauto. }
  now apply both_ind.
Qed.
Lemma page_whole p : whole (j_page p) = true <-> ~ page_defs p.
Proof.
  change (j_page p) with (JObj [jpair "elements" (JArr (map (jloc j_block) p))]). rewrite obj1, whole_map. unfold page_defs. rewrite some_In.
  destruct block_item_whole as [B _]. split.
  - intros H (x & I & D). revert D. apply B. specialize (H x I).
    destruct (block_obj uri_json date_str (l_val x)) as [fs E]. now rewrite <- (jloc_whole_iff _ _ _ E).
  - intros N x I. destruct (block_obj uri_json date_str (l_val x)) as [fs E]. rewrite (jloc_whole_iff _ _ _ E). apply B. intro D. apply N. eauto.
Qed.

(** * Depth *)

Lemma fold_le {A} (f : A -> nat) l : forall n, (forall x, In x l -> f x <= n) -> fold_right (fun x n => Nat.max (f x) n) 0 l <= n.
Proof. induction l as [|x l IH]; intros n H; cbn [fold_right]; [lia|]. apply Nat.max_lub; [apply H; now left|]. apply IH. intros y I. apply H. now right. Qed.
Lemma fold_max {A} (f : A -> nat) l x : In x l -> f x <= fold_right (fun x n => Nat.max (f x) n) 0 l.
Proof. induction l as [|y l IH]; intros []; cbn [fold_right]; [subst; lia|]. specialize (IH H). lia. Qed.
Lemma fold_pick {A} (f : A -> nat) l : 0 < fold_right (fun x n => Nat.max (f x) n) 0 l ->
  exists x, In x l /\ f x = fold_right (fun x n => Nat.max (f x) n) 0 l.
Proof.
  induction l as [|y l IH]; cbn [fold_right]; [lia|]. intro H. destruct (Nat.le_gt_cases (fold_right (fun x n => Nat.max (f x) n) 0 l) (f y)).
  - exists y. split; [now left|lia].
  - destruct IH as (x & I & E); [lia|]. exists x. split; [now right|lia].
Qed.

Lemma block_deep :
  (forall b, levels b = 0 \/ 5 * levels b + 1 <= jdepth (j_block b)) /\
  (forall i, 5 * item_levels i + 3 <= jdepth (j_item i)).
Proof.
  assert (H1 : forall b, (forall items, b <> BList items) -> levels b = 0 \/ 5 * levels b + 1 <= jdepth (j_block b)).
  { intros b NL. left. destruct b; auto. now destruct (NL items). }
  assert (LE : forall {A} (g : A -> json) x fs, g (l_val x) = JObj fs -> jdepth (g (l_val x)) <= jdepth (jloc g x)).
  { intros A g x fs E. destruct (jloc_depth g x) as [H|H]; auto. unfold jloc. rewrite E. cbn [jflat jdepth]. apply le_n_S.
    clear. induction fs as [|y fs IH]; cbn [app fold_right]; lia. }
  assert (H2 : forall items, Forall (fun x => 5 * item_levels (l_val x) + 3 <= jdepth (j_item (l_val x))) items ->
     levels (BList items) = 0 \/ 5 * levels (BList items) + 1 <= jdepth (j_block (BList items))).
  { intros items F. rewrite Forall_forall in F. destruct items as [|i items]; [now left|]. right.
    change (levels (BList (i :: items))) with (S (fold_right (fun x n => Nat.max (item_levels (l_val x)) n) 0 (i :: items))).
    change (j_block (BList (i :: items))) with (jtag "list" (JObj [jpair "items" (JArr (map (jloc j_item) (i :: items)))])).
    rewrite tag_depth. set (l := i :: items) in *.
    assert (X : exists x, In x l /\ item_levels (l_val x) = fold_right (fun x n => Nat.max (item_levels (l_val x)) n) 0 l).
    { destruct (Nat.eq_0_gt_0_cases (fold_right (fun x n => Nat.max (item_levels (l_val x)) n) 0 l)) as [Z|G].
      - exists i. split; [now left|]. rewrite Z. assert (K := fold_max (fun x => item_levels (l_val x)) l i (or_introl eq_refl)). cbn beta in K. lia.
      - exact (fold_pick (fun x => item_levels (l_val x)) l G). }
    destruct X as (x & I & E). rewrite <- E. specialize (F x I).
    destruct (item_obj uri_json date_str (l_val x)) as [fs Eo]. specialize (LE _ _ _ _ Eo).
    pose proof (arr_depth (map (jloc j_item) l) _ (in_map (jloc j_item) _ _ I)).
    assert (jdepth (JArr (map (jloc j_item) l)) < jdepth (JObj [jpair "items" (JArr (map (jloc j_item) l))])) by (eapply obj_depth; left; reflexivity).
    lia. }
  assert (H3 : forall ty suf pos cs todo, Forall (fun x => levels (l_val x) = 0 \/ 5 * levels (l_val x) + 1 <= jdepth (j_block (l_val x))) cs ->
     5 * item_levels (ListItem ty suf pos cs todo) + 3 <= jdepth (j_item (ListItem ty suf pos cs todo))).
  { intros ty suf pos cs todo F. rewrite Forall_forall in F.
    change (item_levels (ListItem ty suf pos cs todo)) with (fold_right (fun x n => Nat.max (levels (l_val x)) n) 0 cs).
    assert (T : jdepth (j_item_ty ty) < jdepth (j_item (ListItem ty suf pos cs todo))) by (eapply obj_depth; left; reflexivity).
    assert (T2 : 2 <= jdepth (j_item_ty ty)) by (destruct ty as [[]|[]]; cbn; lia).
    destruct (Nat.eq_0_gt_0_cases (fold_right (fun x n => Nat.max (levels (l_val x)) n) 0 cs)) as [Z|G]; [lia|].
    destruct (fold_pick (fun x => levels (l_val x)) cs G) as (x & I & E). cbn beta in E. rewrite <- E in *.
    destruct (F x I) as [K|K]; [lia|].
    destruct (block_obj uri_json date_str (l_val x)) as [fs Eo]. specialize (LE _ _ _ _ Eo).
    pose proof (arr_depth (map (jloc j_block) cs) _ (in_map (jloc j_block) _ _ I)).
    assert (jdepth (JArr (map (jloc j_block) cs)) < jdepth (j_item (ListItem ty suf pos cs todo))) by (eapply obj_depth; do 3 right; left; reflexivity).
    lia. }
  now apply both_ind.
Qed.
Lemma page_deep p : page_levels p = 0 \/ 5 * page_levels p + 3 <= jdepth (j_page p).
Proof.
  unfold page_levels. destruct (Nat.eq_0_gt_0_cases (fold_right (fun x n => Nat.max (levels (l_val x)) n) 0 p)) as [Z|G]; [now left|right].
  destruct (fold_pick (fun x => levels (l_val x)) p G) as (x & I & E). cbn beta in E. rewrite <- E in *.
  destruct (proj1 block_deep (l_val x)) as [K|K]; [lia|].
  destruct (block_obj uri_json date_str (l_val x)) as [fs Eo].
  assert (LE : jdepth (j_block (l_val x)) <= jdepth (jloc j_block x)).
  { unfold jloc. rewrite Eo. cbn [jflat jdepth]. apply le_n_S. clear. induction fs as [|y fs IH]; cbn [app fold_right]; lia. }
  pose proof (arr_depth (map (jloc j_block) p) _ (in_map (jloc j_block) _ _ I)).
  assert (jdepth (JArr (map (jloc j_block) p)) < jdepth (j_page p)) by (eapply obj_depth; left; reflexivity). lia.
Qed.

(** How deep URI references are written. *)
Variable k : nat.
Hypothesis uri_flat : forall u, jdepth (uri_json u) <= S k.

Lemma simple_inline_depth i : simple_inline i -> jdepth (j_inline i) <= 5 + k.
Proof.
  destruct i as [t|dk cs|kw|l|ts|t|t|c]; intro Sm; try (cbn; lia); try destruct Sm.
  - change (j_inline (ILink l)) with (jtag "link" (j_link l)). rewrite tag_depth. apply le_n_S.
    assert (D : forall u x p, match x with Some (DescTransclusion _) => False | _ => True end -> jdepth (j_link_data (LinkData u x p)) <= 2 + k).
    { intros u x p X. change (jdepth (j_link_data (LinkData u x p))) with
        (S (Nat.max (jdepth (uri_json u)) (Nat.max (jdepth (jopt j_desc x)) (Nat.max (jdepth (jopt jmap p)) 0)))).
      apply (le_n_S _ (1 + k)). repeat apply Nat.max_lub; [apply uri_flat| | |lia].
      - destruct x as [[t|d]|]; [cbn; lia|destruct X|cbn; lia].
      - destruct p as [p|]; [cbn [jopt]; pose proof (jmap_depth p); lia|cbn; lia]. }
    assert (D' : jdepth (j_link_data (link_get_data l)) <= 2 + k).
    { cbn [simple_inline] in Sm. destruct (link_get_data l) as [u x p]. apply D. destruct x as [[]|]; auto. }
    destruct l as [d|i d|n d|dt d|d|d]; cbn [ModelJson.j_link link_get_data] in *; rewrite tag_depth; apply le_n_S;
      cbn [jdepth fold_right snd jpair jdate]; lia.
  - change (j_inline (ITags ts)) with (jtag "tags" (jstrs ts)). rewrite tag_depth. pose proof (strs_depth ts). lia.
  - change (j_inline (IComment c)) with (jtag "comment" (j_comment c)). rewrite tag_depth. destruct c as [t|ls]; [cbn; lia|].
    cbn [j_comment]. rewrite tag_depth. pose proof (strs_depth ls). lia.
Qed.
Lemma simple_cont_depth c : simple_cont c -> jdepth (j_cont c) <= 7 + k.
Proof.
  intro Sm. change (jdepth (j_cont c)) with (S (Nat.max (jdepth (JArr (map (jloc j_inline) c))) 0)). rewrite Nat.max_0_r. apply le_n_S.
  apply map_depth. intros x I. destruct (inline_obj (l_val x)) as [fs E]. apply (loc_depth _ _ _ _ E); [|lia].
  apply simple_inline_depth. exact (all_In _ _ _ Sm I).
Qed.
Lemma simple_block_depth :
  (forall b, simple_block b -> ~ has_defs b -> jdepth (j_block b) <= 12 + k + 5 * levels b) /\
  (forall i, simple_item i -> ~ item_defs i -> jdepth (j_item i) <= 14 + k + 5 * item_levels i).
Proof.
  assert (H1 : forall b, (forall items, b <> BList items) -> simple_block b -> ~ has_defs b -> jdepth (j_block b) <= 12 + k + 5 * levels b).
  { intros b NL Sm D. replace (levels b) with 0 by (destruct b; auto; now destruct (NL items)). rewrite Nat.mul_0_r.
    destruct b as [ls|d| |h|items|m|ls|p|c|t].
    - change (j_block (BBlockquote ls)) with (jtag "blockquote" (JObj [jpair "lines" (jstrs ls)])). rewrite tag_depth.
      pose proof (strs_depth ls). cbn [jdepth fold_right snd jpair] in *. lia.
    - destruct d as [|t d]; [cbn; lia|]. destruct D. discriminate.
    - cbn. lia.
    - change (j_block (BHeader h)) with (jtag "header" (j_header uri_json date_str h)). rewrite tag_depth. apply simple_cont_depth in Sm.
      change (jdepth (j_header uri_json date_str h)) with (S (Nat.max (jdepth (j_cont (h_content h))) 0)). lia.
    - now destruct (NL items).
    - change (j_block (BMath m)) with (jtag "math_block" (j_math m)). rewrite tag_depth. pose proof (strs_depth (mb_lines m)).
      change (jdepth (j_math m)) with (S (Nat.max (jdepth (jstrs (mb_lines m))) (Nat.max (jdepth (jopt JStr (mb_env m))) 0))).
      destruct (mb_env m); cbn [jopt jdepth]; lia.
    - change (j_block (BParagraph ls)) with (jtag "paragraph" (JObj [jpair "lines" (JArr (map j_cont ls))])). rewrite tag_depth.
      assert (jdepth (JArr (map j_cont ls)) <= 8 + k).
      { apply map_depth. intros x I. apply simple_cont_depth. change (all simple_cont ls) in Sm. exact (all_In _ _ _ Sm I). }
      change (jdepth (JObj [jpair "lines" (JArr (map j_cont ls))])) with (S (Nat.max (jdepth (JArr (map j_cont ls))) 0)). lia.
    - change (j_block (BPlaceholder p)) with (jtag "placeholder" (j_placeholder date_str p)). rewrite tag_depth. destruct p; cbn; lia.
    - change (j_block (BCode c)) with (jtag "code_block" (j_code c)). rewrite tag_depth. pose proof (strs_depth (cb_lines c)). pose proof (jmap_depth (cb_meta c)).
      change (jdepth (j_code c)) with (S (Nat.max (jdepth (jopt JStr (cb_lang c))) (Nat.max (jdepth (jmap (cb_meta c))) (Nat.max (jdepth (jstrs (cb_lines c))) 0)))).
      destruct (cb_lang c); cbn [jopt jdepth] in *; lia.
    - change (j_block (BTable t)) with (jtag "table" (j_table uri_json date_str t)). rewrite tag_depth.
      set (e := fun kv => JArr [j_cellpos (fst kv); jloc j_cell (snd kv)]).
      change (jdepth (j_table uri_json date_str t)) with (S (Nat.max (jdepth (JArr (map e (t_cells t)))) 0)).
      assert (jdepth (JArr (map e (t_cells t))) <= 10 + k); [|lia].
      apply map_depth. intros [q x] I. subst e. cbn [fst snd].
      change (jdepth (JArr [j_cellpos q; jloc j_cell x])) with (S (Nat.max 1 (Nat.max (jdepth (jloc j_cell x)) 0))).
      assert (jdepth (jloc j_cell x) <= 8 + k); [|lia].
      destruct (cell_obj (l_val x)) as [fs E]. apply (loc_depth _ _ _ _ E); [|lia].
      cbn [simple_block] in Sm. apply (all_In _ _ _ Sm) in I. cbn [snd] in I. destruct (l_val x) as [c|[]|[]]; try (cbn; lia).
      change (j_cell (CContent c)) with (jtag "content" (j_cont c)). rewrite tag_depth. apply simple_cont_depth in I. lia. }
  assert (H2 : forall items, Forall (fun x => simple_item (l_val x) -> ~ item_defs (l_val x) -> jdepth (j_item (l_val x)) <= 14 + k + 5 * item_levels (l_val x)) items ->
     simple_block (BList items) -> ~ has_defs (BList items) -> jdepth (j_block (BList items)) <= 12 + k + 5 * levels (BList items)).
  { intros items F Sm D. rewrite Forall_forall in F. change (all (fun x => simple_item (l_val x)) items) in Sm.
    change (~ some (fun x => item_defs (l_val x)) items) in D. rewrite some_In in D.
    change (j_block (BList items)) with (jtag "list" (JObj [jpair "items" (JArr (map (jloc j_item) items))])). rewrite tag_depth.
    change (jdepth (JObj [jpair "items" (JArr (map (jloc j_item) items))])) with (S (Nat.max (jdepth (JArr (map (jloc j_item) items))) 0)).
    destruct items as [|i items]; [cbn; lia|]. set (l := i :: items) in *.
    change (levels (BList l)) with (S (fold_right (fun x n => Nat.max (item_levels (l_val x)) n) 0 l)).
    set (m := fold_right (fun x n => Nat.max (item_levels (l_val x)) n) 0 l).
    assert (jdepth (JArr (map (jloc j_item) l)) <= S (14 + k + 5 * m)); [|lia].
    apply map_depth. intros x I. destruct (item_obj uri_json date_str (l_val x)) as [fs E]. apply (loc_depth _ _ _ _ E); [|lia].
    assert (K := fold_max (fun x => item_levels (l_val x)) l x I). cbn beta in K. fold m in K.
    assert (jdepth (j_item (l_val x)) <= 14 + k + 5 * item_levels (l_val x)); [|lia].
    apply F; auto; [exact (all_In _ _ _ Sm I)|]. intro H. apply D. eauto. }
  assert (H3 : forall ty suf pos cs todo, Forall (fun x => simple_block (l_val x) -> ~ has_defs (l_val x) -> jdepth (j_block (l_val x)) <= 12 + k + 5 * levels (l_val x)) cs ->
     simple_item (ListItem ty suf pos cs todo) -> ~ item_defs (ListItem ty suf pos cs todo) ->
     jdepth (j_item (ListItem ty suf pos cs todo)) <= 14 + k + 5 * item_levels (ListItem ty suf pos cs todo)).
  { intros ty suf pos cs todo F Sm D. rewrite Forall_forall in F. change (all (fun x => simple_block (l_val x)) cs) in Sm.
    change (~ some (fun x => has_defs (l_val x)) cs) in D. rewrite some_In in D.
    change (item_levels (ListItem ty suf pos cs todo)) with (fold_right (fun x n => Nat.max (levels (l_val x)) n) 0 cs).
    set (m := fold_right (fun x n => Nat.max (levels (l_val x)) n) 0 cs).
    assert (C : jdepth (JArr (map (jloc j_block) cs)) <= S (12 + k + 5 * m)).
    { apply map_depth. intros x I. destruct (block_obj uri_json date_str (l_val x)) as [fs E]. apply (loc_depth _ _ _ _ E); [|lia].
      assert (K := fold_max (fun x => levels (l_val x)) cs x I). cbn beta in K. fold m in K.
      assert (jdepth (j_block (l_val x)) <= 12 + k + 5 * levels (l_val x)); [|lia].
      apply F; auto; [exact (all_In _ _ _ Sm I)|]. intro H. apply D. eauto. }
    change (jdepth (j_item (ListItem ty suf pos cs todo))) with
      (S (Nat.max (jdepth (j_item_ty ty)) (Nat.max 1 (Nat.max 0 (Nat.max (jdepth (JArr (map (jloc j_block) cs)))
         (Nat.max (S (Nat.max (jdepth (jopt j_todo todo)) 0)) 0)))))).
    assert (jdepth (j_item_ty ty) <= 3) by (destruct ty as [[]|[]]; cbn; lia).
    assert (jdepth (jopt j_todo todo) <= 1) by (destruct todo; cbn; lia). lia. }
  now apply both_ind.
Qed.
Lemma simple_page_depth p : simple_page p -> ~ page_defs p -> jdepth (j_page p) <= 14 + k + 5 * page_levels p.
Proof.
  intros Sm D. unfold page_defs in D. rewrite some_In in D.
  change (jdepth (j_page p)) with (S (Nat.max (jdepth (JArr (map (jloc j_block) p))) 0)). rewrite Nat.max_0_r.
  assert (jdepth (JArr (map (jloc j_block) p)) <= S (12 + k + 5 * page_levels p)); [|lia].
  apply map_depth. intros x I. destruct (block_obj uri_json date_str (l_val x)) as [fs E]. apply (loc_depth _ _ _ _ E); [|lia].
  assert (K := fold_max (fun x => levels (l_val x)) p x I). cbn beta in K. fold (page_levels p) in K.
  assert (jdepth (j_block (l_val x)) <= 12 + k + 5 * levels (l_val x)); [|lia].
  apply simple_block_depth; [exact (all_In _ _ _ Sm I)|]. intro H. apply D. eauto.
Qed.
End Whole.
