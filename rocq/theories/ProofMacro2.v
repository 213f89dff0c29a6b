(** The value of the code a macro generates, from the texts of the page. *)
From Coq Require Import Lia Arith NArith Permutation.
From Verif Require Import Base ModelSpan ModelAst ModelTable ModelLink ModelElem ModelMacro SpecEq SpecMacro ProofBase ProofTree.
From Verif Require ProofEq3 ProofEq4 ProofTable ProofJson2 ProofJson3.
Local Open Scope nat_scope.

Lemma gbind_some {A B} (m : gen A) (k : A -> gen B) n n' x : m n = Some (n', x) -> gbind m k n = k x n'.
Proof. unfold gbind. now intros ->. Qed.
Lemma gbind_none {A B} (m : gen A) (k : A -> gen B) n : m n = None -> gbind m k n = None.
Proof. unfold gbind. now intros ->. Qed.

(** * One computation and the texts it quotes *)

Section Good.
Variable q : str -> gen str.

(** [m] quotes the texts [ts]; when that gives [us], [m] gives a value related
    to them. *)
Definition good {B} (m : gen B) (ts : list str) (R : B -> list str -> Prop) : Prop :=
  forall n, match g_each q ts n with
            | Some (n', us) => exists y, m n = Some (n', y) /\ R y us
            | None => m n = None
            end.
Lemma g_each_app a b n : g_each q (a ++ b) n =
  match g_each q a n with
  | Some (n', us) => match g_each q b n' with
                     | Some (n'', vs) => Some (n'', us ++ vs)
                     | None => None
                     end
  | None => None
  end.
Proof.
  revert n. induction a as [|x a IH]; intro n; cbn [app g_each].
  - unfold gret. destruct (g_each q b n) as [[? ?]|]; reflexivity.
  - unfold gbind at 1 3. destruct (q x n) as [[n1 y]|]; [|reflexivity]. unfold gbind. rewrite IH.
    destruct (g_each q a n1) as [[n2 us]|]; [|reflexivity]. cbn [gret]. now destruct (g_each q b n2) as [[n3 vs]|].
Qed.
Lemma good_ret {B} (y : B) (R : B -> list str -> Prop) : R y [] -> good (gret y) [] R.
Proof. intros H n. cbn [g_each]. unfold gret. exists y. auto. Qed.
Lemma good_bind {A B} (m : gen A) (k : A -> gen B) a b R (Q : B -> list str -> Prop) :
  good m a R -> (forall y us, R y us -> good (k y) b (fun z vs => Q z (us ++ vs))) -> good (gbind m k) (a ++ b) Q.
Proof.
  intros Hm Hk n. rewrite g_each_app. specialize (Hm n). destruct (g_each q a n) as [[n1 us]|].
  - destruct Hm as (y & E & H). specialize (Hk y us H n1). rewrite (gbind_some _ _ _ _ _ E). destruct (g_each q b n1) as [[n2 vs]|]; exact Hk.
  - now apply gbind_none.
Qed.
Lemma good_last {A B} (m : gen A) (f : A -> B) a R (Q : B -> list str -> Prop) :
  good m a R -> (forall y us, R y us -> Q (f y) us) -> good (gbind m (fun y => gret (f y))) a Q.
Proof.
  intros Hm Hf. rewrite <- (app_nil_r a). eapply good_bind; [exact Hm|]. intros y us H. apply good_ret. rewrite app_nil_r. auto.
Qed.
Lemma good_weaken {B} (m : gen B) a (R Q : B -> list str -> Prop) : good m a R -> (forall y us, R y us -> Q y us) -> good m a Q.
Proof. intros H K n. specialize (H n). destruct (g_each q a n) as [[n1 us]|]; [|auto]. destruct H as (y & E & H). eauto. Qed.
Lemma good_q s : good (q s) [s] (fun y us => us = [y]).
Proof.
  intro n. cbn [g_each]. unfold gbind. destruct (q s n) as [[n1 y]|]; [|reflexivity]. cbn. eauto.
Qed.

(** The value has the quoted texts and keeps the frame. *)
Definition kept {A C} (tx : A -> list str) (sh : A -> C) (x : A) (y : A) (us : list str) : Prop :=
  tx y = us /\ sh y = sh x.
Lemma good_each {A C} (f : A -> gen A) tx (sh : A -> C) l :
  Forall (fun x => good (f x) (tx x) (kept tx sh x)) l ->
  good (g_each f l) (flat_map tx l) (kept (flat_map tx) (map sh) l).
Proof.
  induction 1 as [|x l H F IH]; cbn [g_each flat_map]; [apply good_ret; split; reflexivity|].
  eapply good_bind; [exact H|]. intros y us [E1 E2]. eapply good_last; [exact IH|]. intros ys vs [E3 E4].
  split; cbn [flat_map map]; congruence.
Qed.
Lemma good_texts l : good (g_each q l) l (fun ys us => us = ys).
Proof. intro n. destruct (g_each q l n) as [[n1 us]|]; eauto. Qed.
Lemma good_loc {A} (f : A -> gen A) (tx : A -> list str) (sh : A -> A) x :
  good (f (l_val x)) (tx (l_val x)) (kept tx sh (l_val x)) ->
  good (g_loc f x) (tx (l_val x)) (kept (fun x => tx (l_val x)) (m_loc shallow sh) x).
Proof.
  intro H. unfold g_loc. eapply good_last; [exact H|]. intros y us [E1 E2]. split; cbn [l_val]; [exact E1|]. unfold m_loc. cbn [l_val l_reg].
  rewrite E2. reflexivity.
Qed.
Lemma good_opt o : good (g_opt q o) (opt_texts o) (fun o' us => opt_texts o' = us /\ option_map (fun _ : str => @nil byte) o' = option_map (fun _ => []) o).
Proof.
  destruct o as [s|]; cbn [g_opt opt_texts]; [|apply good_ret; auto]. eapply good_last; [apply good_q|]. intros y us ->. auto.
Qed.
End Good.

Definition erase (_ : str) : str := [].
Lemma erase_texts (l : list str) m : length l = length m -> map erase l = map erase m.
Proof. revert m. induction l as [|x l IH]; destruct m; cbn; try discriminate; auto. intro H. f_equal; auto. Qed.
Lemma g_each_length {A B} (f : A -> gen B) l : forall n n' us, g_each f l n = Some (n', us) -> length us = length l.
Proof.
  induction l as [|x l IH]; intros n n' us E; cbn [g_each] in E; [injection E as _ <-; reflexivity|].
  unfold gbind, gret in E. destruct (f x n) as [[n1 y]|]; [|discriminate]. destruct (g_each f l n1) as [[n2 ys]|] eqn:El; [|discriminate].
  injection E as _ <-. cbn. f_equal. eauto.
Qed.
Lemma good_lines q l : good q (g_each q l) l (fun ys us => ys = us /\ map erase ys = map erase l).
Proof.
  intro n. destruct (g_each q l n) as [[n1 us]|] eqn:E; [|reflexivity]. exists us. repeat split. apply erase_texts. eapply g_each_length; eauto.
Qed.

(** * Tables and maps *)

Lemma table_new_same cells c t : keyed cells -> counted t -> map fst cells = map fst (t_cells t) ->
  table_new (cells_collect cells) c = Table cells (t_row_cnt t) (t_col_cnt t) c.
Proof.
  intros K C E. rewrite ProofTable.cells_collect_id by exact K.
  destruct (ProofEq4.table_new_ok cells c) as [_ N].
  assert (X : t_cells (table_new cells c) = cells) by (unfold table_new; cbn [t_cells]; now apply ProofTable.cells_collect_id).
  destruct (ProofEq3.counts_perm _ _ N C) as [R1 R2]; [rewrite X, E; reflexivity|].
  destruct (table_new cells c) as [c1 r1 k1 ce1] eqn:T. cbn [t_cells t_row_cnt t_col_cnt] in *. subst.
  unfold table_new in T. injection T as _ _ _ <-. reflexivity.
Qed.

(** * The walk over a page *)

Section Walk.
Variable q : str -> gen str.
Variable up : str -> option uri.
Notation fr := (m_loc shallow).

Definition fixed_keys (m : list (str * str)) : Prop := Forall (fun kv => forall n, q (fst kv) n = Some (n, fst kv)) m.
Notation ok_u := (prints_back up).

Lemma good_map m : keyed m -> fixed_keys m -> good q (g_map q m) (map_texts m) (kept map_texts (m_map erase) m).
Proof.
  intros K F. unfold g_map.
  assert (E : good q (g_each (fun kv => gbind (q (fst kv)) (fun k => gbind (q (snd kv)) (fun v => gret (k, v)))) m) (map_texts m)
     (fun ps us => map_texts ps = us /\ map fst ps = map fst m /\ m_map erase ps = m_map erase m)).
  { unfold map_texts. clear K. induction F as [|[k v] m Fk F IH]; cbn [g_each flat_map]; [apply good_ret; auto|].
    eapply good_bind.
    - change [fst (k, v); snd (k, v)] with ([k] ++ [v]).
      eapply (good_bind q) with (R := fun y us => us = [y] /\ y = k).
      + intro n. cbn [g_each fst]. unfold gbind. cbn [fst] in Fk. rewrite Fk. cbn. eauto.
      + intros y us [-> ->]. eapply good_last; [apply good_q|]. cbn [snd]. intros z vs ->.
        instantiate (1 := fun y us => us = [fst y; snd y] /\ fst y = k). cbn. auto.
    - intros [k' v'] us [-> E]. cbn [fst snd] in *. subst k'. eapply good_last; [exact IH|]. intros ps vs (E1 & E2 & E3).
      cbn [flat_map map m_map fst snd app]. repeat split; [congruence|congruence|]. unfold m_map in *. cbn [map fst snd]. now rewrite E3. }
  eapply good_last; [exact E|]. intros ps us (E1 & E2 & E3).
  rewrite ProofJson2.collect_same by (unfold keyed in *; now rewrite E2). split; auto.
Qed.
Lemma good_uri u : ok_u u -> good q (g_uri up u) [] (fun v us => v = u /\ us = []).
Proof. intros H n. cbn. unfold g_uri. rewrite H. eauto. Qed.

Fixpoint good_desc d : ok_desc d -> desc_maps fixed_keys d -> desc_uris ok_u d ->
  good q (g_desc q up d) (desc_texts d) (kept desc_texts (m_desc erase) d)
with good_data x : ok_data x -> data_maps fixed_keys x -> data_uris ok_u x ->
  good q (g_data q up x) (data_texts x) (kept data_texts (m_data erase) x).
Proof.
  - destruct d as [t|x]; intros O M U; cbn [g_desc desc_texts].
    + eapply good_last; [apply good_q|]. intros y us ->. split; reflexivity.
    + eapply good_last; [exact (good_data x O M U)|]. intros y us [E1 E2]. split; [exact E1|exact (f_equal DescTransclusion E2)].
  - destruct x as [u d p]. intros [O1 O2] [M1 M2] [U1 U2]. cbn [g_data data_texts].
    change (match d with Some y => desc_texts y | None => [] end ++ match p with Some m => map_texts m | None => [] end)
      with ([] ++ match d with Some y => desc_texts y | None => [] end ++ match p with Some m => map_texts m | None => [] end).
    eapply good_bind; [apply good_uri, U1|]. intros v us [-> ->]. cbn [app].
    eapply good_bind with (R := fun d' us => match d' with Some y => desc_texts y | None => [] end = us /\
       match d' with Some y => Some (m_desc erase y) | None => None end = match d with Some y => Some (m_desc erase y) | None => None end).
    + destruct d as [y|]; [|apply good_ret; auto]. eapply good_last; [exact (good_desc y O1 M1 U2)|]. intros z us [E1 E2]. cbn. now rewrite E1, E2.
    + intros d' us [E1 E2]. eapply good_last with (R := fun p' us => match p' with Some m => map_texts m | None => [] end = us /\
         option_map (m_map erase) p' = option_map (m_map erase) p).
      * destruct p as [m|]; cbn [g_opt]; [|apply good_ret; auto]. eapply good_last; [exact (good_map m O2 M2)|]. intros z vs [E3 E4]. cbn. now rewrite E3, E4.
      * intros p' vs [E3 E4]. split; cbn [data_texts m_data]; [now rewrite E1, E3|]. cbn [m_data m_desc] in *. rewrite E4. f_equal. exact E2.
Qed.
Lemma good_link l : ok_link l -> link_maps fixed_keys l -> link_uris ok_u l ->
  good q (g_link q up l) (link_texts l) (kept link_texts (m_link erase) l).
Proof.
  intros O M U. destruct l as [d|i d|nm d|dt d|d|d]; cbn [g_link link_texts link_get_data] in *;
    try (eapply good_last; [apply good_data; [exact O|exact M|exact U]|]; intros y us [E1 E2]; split; cbn [link_texts link_get_data m_link]; congruence).
  change (nm :: data_texts d) with ([nm] ++ data_texts d). eapply good_bind; [apply good_q|]. intros y us ->.
  eapply good_last; [apply good_data; [exact O|exact M|exact U]|]. intros z vs [E1 E2]. split; [exact (f_equal (cons y) E1)|exact (f_equal (LNamed []) E2)].
Qed.
Lemma all_forall {A} (P : A -> Prop) l : all P l <-> Forall P l.
Proof. induction l as [|x l IH]; cbn [all]; [split; auto|]. rewrite IH. split; [intros []; auto|intro H; inversion H; auto]. Qed.
Lemma good_locs {A} (f : A -> gen A) tx (sh : A -> A) l :
  Forall (fun x => good q (f (l_val x)) (tx (l_val x)) (kept tx sh (l_val x))) l ->
  good q (g_each (g_loc f) l) (flat_map (fun x => tx (l_val x)) l) (kept (flat_map (fun x => tx (l_val x))) (map (fr sh)) l).
Proof. intro F. apply good_each. eapply Forall_impl; [|exact F]. intros x H. now apply good_loc. Qed.

Lemma good_dc c : ok_dc c -> dc_maps fixed_keys c -> dc_uris ok_u c ->
  good q (g_dc q up c) (dc_texts c) (kept dc_texts (m_dc erase shallow) c).
Proof.
  induction c as [t|k cs IH|k|l] using dcontent_ind'; intros O M U; cbn [g_dc dc_texts ok_dc dc_maps dc_uris] in *.
  - eapply good_last; [apply good_q|]. intros y us ->. split; reflexivity.
  - eapply good_last; [apply good_locs with (sh := m_dc erase shallow)|].
    + rewrite all_forall, Forall_forall in *. intros x I. apply IH; auto.
    + intros y us [E1 E2]. split; cbn [dc_texts m_dc]; congruence.
  - apply good_ret. split; reflexivity.
  - eapply good_last; [apply good_link; auto|]. intros y us [E1 E2]. split; cbn [dc_texts m_dc]; congruence.
Qed.
Lemma good_inline i : ok_inline i -> inline_maps fixed_keys i -> inline_uris ok_u i ->
  good q (g_inline q up i) (inline_texts i) (kept inline_texts (m_inline erase shallow) i).
Proof.
  intros O M U. destruct i as [t|k cs|k|l|ts|t|t|[t|ls]]; cbn [g_inline inline_texts ok_inline inline_maps inline_uris] in *;
    try (eapply good_last; [apply good_q|]; intros y us ->; split; reflexivity).
  - eapply good_last; [apply good_locs with (sh := m_dc erase shallow)|].
    + rewrite all_forall, Forall_forall in *. intros x I. apply good_dc; auto.
    + intros y us [E1 E2]. split; cbn [inline_texts m_inline]; congruence.
  - apply good_ret. split; reflexivity.
  - eapply good_last; [apply good_link; auto|]. intros y us [E1 E2]. split; cbn [inline_texts m_inline]; congruence.
  - eapply good_last; [apply good_lines|]. intros y us [E1 E2]. split; cbn [inline_texts m_inline]; congruence.
  - eapply good_last; [apply good_lines|]. intros y us [E1 E2]. split; cbn [inline_texts m_inline]; congruence.
Qed.
Lemma good_cont c : ok_cont c -> cont_maps fixed_keys c -> cont_uris ok_u c ->
  good q (g_cont q up c) (cont_texts c) (kept cont_texts (m_cont erase shallow) c).
Proof.
  intros O M U. unfold ok_cont, cont_maps, cont_uris in *. apply good_locs with (sh := m_inline erase shallow) (tx := inline_texts).
  rewrite all_forall, Forall_forall in *. intros x I. apply good_inline; auto.
Qed.
Lemma good_td t : ok_td t -> td_values (cont_maps fixed_keys) t -> td_values (cont_uris ok_u) t ->
  good q (g_td q up t) (td_texts t) (kept td_texts (m_td erase shallow) t).
Proof.
  intros [O1 O2] [M1 M2] [U1 U2]. unfold g_td, td_texts. eapply good_bind.
  - eapply good_loc with (sh := m_cont erase shallow) (tx := cont_texts). exact (good_cont _ O1 M1 U1).
  - intros a us [E1 E2]. eapply good_last.
    + eapply good_loc with (sh := map (fr (m_cont erase shallow))) (tx := flat_map (fun x => cont_texts (l_val x))).
      apply good_locs. rewrite all_forall, Forall_forall in *. intros x I. apply good_cont; auto.
    + intros b vs [E3 E4]. split; cbn [td_texts td_term td_defs m_td]; [unfold td_texts; cbn [td_term td_defs]; congruence|]. unfold m_td. cbn [td_term td_defs]. congruence.
Qed.
Lemma good_cell c : ok_cell c -> cell_maps fixed_keys c -> cell_uris ok_u c ->
  good q (g_cell q up c) (cell_texts c) (kept cell_texts (m_cell erase shallow) c).
Proof.
  destruct c as [x|s|a]; intros O M U; cbn [g_cell cell_texts]; try (apply good_ret; split; reflexivity).
  eapply good_last; [apply good_cont; auto|]. intros y us [E1 E2]. split; cbn [cell_texts m_cell]; congruence.
Qed.
Lemma good_table t : ok_table t -> all (fun kv => cell_maps fixed_keys (l_val (snd kv))) (t_cells t) ->
  all (fun kv => cell_uris ok_u (l_val (snd kv))) (t_cells t) ->
  good q (g_table q up t) (flat_map (fun kv => cell_texts (l_val (snd kv))) (t_cells t))
    (kept (fun t => flat_map (fun kv => cell_texts (l_val (snd kv))) (t_cells t)) (m_table erase shallow) t).
Proof.
  intros (K & C & O) M U. unfold g_table. eapply good_last.
  - apply good_each with (tx := fun kv => cell_texts (l_val (snd kv))) (sh := fun kv => (fst kv, fr (m_cell erase shallow) (snd kv))).
    rewrite all_forall, Forall_forall in *. intros [k x] I. cbn [fst snd]. eapply good_last.
    + apply good_loc with (sh := m_cell erase shallow) (tx := cell_texts). apply good_cell; [exact (O _ I)|exact (M _ I)|exact (U _ I)].
    + intros y us [E1 E2]. split; cbn [fst snd]; congruence.
  - intros cs us [E1 E2].
    assert (F : map fst cs = map fst (t_cells t)).
    { apply (f_equal (map fst)) in E2. rewrite !map_map in E2. cbn [fst] in E2. exact E2. }
    rewrite (table_new_same cs (t_centered t) t) by (auto; unfold keyed in *; now rewrite F).
    split; cbn [t_cells]; [exact E1|]. unfold m_table. cbn [t_cells t_row_cnt t_col_cnt t_centered]. now rewrite E2.
Qed.

Notation GB := (fun b => ok_block b -> block_maps fixed_keys b -> block_uris ok_u b ->
  good q (g_block q up b) (block_texts b) (kept block_texts (m_block erase shallow) b)).
Notation GI := (fun i => ok_item i -> item_maps fixed_keys i -> item_uris ok_u i ->
  good q (g_item q up i) (item_texts i) (kept item_texts (m_item erase shallow) i)).
Lemma good_block_item : (forall b, GB b) /\ (forall i, GI i).
Proof.
  apply (ProofJson3.both_ind GB GI).
  - intros b N O M U. destruct b as [ls|d| |h|items|m|ls|p|c|t]; cbn [g_block block_texts ok_block block_maps block_uris] in *.
    + eapply good_last; [apply good_lines|]. intros y us [E1 E2]. split; [exact E1|exact (f_equal BBlockquote E2)].
    + eapply good_last; [apply good_locs with (sh := m_td erase shallow) (tx := td_texts)|].
      * rewrite all_forall, Forall_forall in *. intros x I. apply good_td; auto.
      * intros y us [E1 E2]. split; [exact E1|exact (f_equal BDefList E2)].
    + apply good_ret. split; reflexivity.
    + eapply good_last; [unfold g_header; eapply good_last; [apply good_cont; eauto|]|].
      * intros y us [E1 E2]. instantiate (1 := fun z us => cont_texts (h_content z) = us /\ BHeader (Header (m_cont erase shallow (h_content z)) (h_level z) (h_centered z)) = m_block erase shallow (BHeader h)).
        cbn [h_content h_level h_centered m_block]. split; congruence.
      * intros z us [E1 E2]. split; [exact E1|exact E2].
    + exfalso. now apply (N items).
    + unfold g_math. eapply good_last; [eapply good_bind; [apply good_opt|]|].
      * intros o us [E1 E2]. eapply good_last; [apply good_lines|]. intros ls vs [E3 E4].
        instantiate (1 := fun z us => block_texts (BMath z) = us /\ m_block erase shallow (BMath z) = m_block erase shallow (BMath m)).
        split; [exact (f_equal2 (@app str) E1 E3)|exact (f_equal2 (fun a b => BMath (MathBlock a b)) E4 E2)].
      * intros z us H. exact H.
    + eapply good_last; [apply good_each with (tx := cont_texts) (sh := m_cont erase shallow)|].
      * rewrite all_forall, Forall_forall in *. intros x I. apply good_cont; auto.
      * intros y us [E1 E2]. split; [exact E1|exact (f_equal BParagraph E2)].
    + destruct p as [t| |t|d|nm v]; cbn [g_placeholder placeholder_texts].
      * eapply good_last; [eapply good_last; [apply good_q|]|]. { intros y us E. instantiate (1 := fun z us => exists y, z = PTitle y /\ us = [y]). exists y. now split. } intros z us (y & -> & ->). split; reflexivity.
      * eapply good_last; [apply good_ret|]. { instantiate (1 := fun z us => z = PNoHtml /\ us = []). now split. } intros z us [-> ->]. split; reflexivity.
      * eapply good_last; [eapply good_last; [apply good_q|]|]. { intros y us E. instantiate (1 := fun z us => exists y, z = PTemplate y /\ us = [y]). exists y. now split. } intros z us (y & -> & ->). split; reflexivity.
      * eapply good_last; [apply good_ret|]. { instantiate (1 := fun z us => z = PDate d /\ us = []). now split. } intros z us [-> ->]. split; reflexivity.
      * change [nm; v] with ([nm] ++ [v]). eapply good_last; [eapply good_bind; [apply good_q|]|].
        { intros y us ->. eapply good_last; [apply good_q|]. intros z vs ->. instantiate (1 := fun z us => exists y x, z = POther y x /\ us = [y; x]). exists y, z. now split. }
        intros z us (y & x & -> & ->). split; reflexivity.
    + unfold g_code. eapply good_last; [eapply good_bind; [apply good_opt|]|].
      * intros o us [E1 E2]. eapply good_bind; [apply good_map; auto|]. intros m vs [E3 E4]. eapply good_last; [apply good_lines|]. intros ls ws [E5 E6].
        instantiate (1 := fun z us => block_texts (BCode z) = us /\ m_block erase shallow (BCode z) = m_block erase shallow (BCode c)).
        split; [exact (f_equal2 (@app str) E1 (f_equal2 (@app str) E3 E5))|exact (f_equal3 (fun a b c => BCode (CodeBlock a b c)) E2 E4 E6)].
      * intros z us H. exact H.
    + eapply good_last; [apply good_table; auto|]. intros y us [E1 E2]. split; [exact E1|exact (f_equal BTable E2)].
  - intros items F O M U. cbn [g_block block_texts ok_block block_maps block_uris] in *.
    eapply good_last; [apply good_locs with (sh := m_item erase shallow) (tx := item_texts)|].
    + rewrite all_forall, Forall_forall in *. intros x I. exact (F x I (O x I) (M x I) (U x I)).
    + intros y us [E1 E2]. split; [exact E1|exact (f_equal BList E2)].
  - intros ty suf pos cs todo F O M U. cbn [g_item item_texts ok_item item_maps item_uris] in *.
    eapply good_bind with (R := fun t us => match t with TUnordered (UOther p) => [p] | _ => [] end = us /\ m_item_ty erase t = m_item_ty erase ty).
    + destruct ty as [o|[| |p]]; cbn [g_item_ty]; try (apply good_ret; split; reflexivity). eapply good_last; [apply good_q|]. intros y us ->. split; reflexivity.
    + intros t us [E1 E2]. eapply good_last; [apply good_locs with (sh := m_block erase shallow) (tx := block_texts)|].
      * rewrite all_forall, Forall_forall in *. intros x I. exact (F x I (O x I) (M x I) (U x I)).
      * intros y vs [E3 E4]. split; [exact (f_equal2 (@app str) E1 E3)|].
        exact (f_equal2 (fun a b => ListItem a suf pos b todo) E2 E4).
Qed.
Theorem good_page p : ok_page p -> page_maps fixed_keys p -> page_uris ok_u p ->
  good q (g_page q up p) (page_texts p) (fun p' us => page_texts p' = us /\ frame p' = frame p).
Proof.
  intros O M U. apply good_locs with (sh := m_block erase shallow) (tx := block_texts).
  unfold ok_page, page_maps, page_uris in *. rewrite all_forall, Forall_forall in *. intros x I. apply good_block_item; auto.
Qed.
End Walk.

(** * Quoting that only depends on the text *)

Section Steady.
Variable q : str -> gen str.
Variable up : str -> option uri.
Variable ft : str -> str.
Notation ok_u := (prints_back up).

Definition gives {A} (m : gen A) (y : A) : Prop := forall n, m n = Some (n, y).
Notation G := (fun t => gives (q t) (ft t)).
Definition same_keys (m : list (str * str)) : Prop := Forall (fun kv => ft (fst kv) = fst kv) m.
Lemma gives_ret {A} (y : A) : gives (gret y) y.
Proof. intro n. reflexivity. Qed.
Lemma gives_bind {A B} (m : gen A) (k : A -> gen B) x y : gives m x -> gives (k x) y -> gives (gbind m k) y.
Proof. intros H K n. rewrite (gbind_some _ _ _ _ _ (H n)). apply K. Qed.
Lemma gives_each {A B} (f : A -> gen B) g l : Forall (fun x => gives (f x) (g x)) l -> gives (g_each f l) (map g l).
Proof.
  induction 1 as [|x l H F IH]; cbn [g_each map]; [apply gives_ret|]. eapply gives_bind; [exact H|]. eapply gives_bind; [exact IH|]. apply gives_ret.
Qed.
Lemma gives_loc {A} (f : A -> gen A) g x : gives (f (l_val x)) (g (l_val x)) -> gives (g_loc f x) (m_loc shallow g x).
Proof. intro H. eapply gives_bind; [exact H|]. apply gives_ret. Qed.
Lemma gives_locs {A} (f : A -> gen A) g l : Forall (fun x => gives (f (l_val x)) (g (l_val x))) l -> gives (g_each (g_loc f) l) (map (m_loc shallow g) l).
Proof. intro F. apply gives_each. eapply Forall_impl; [|exact F]. intros x H. now apply gives_loc. Qed.
Lemma gives_opt o : Forall G (opt_texts o) -> gives (g_opt q o) (option_map ft o).
Proof. destruct o; intro F; [|apply gives_ret]. inversion F; subst. eapply gives_bind; [eassumption|apply gives_ret]. Qed.
Lemma gives_map m : keyed m -> same_keys m -> Forall G (map_texts m) -> gives (g_map q m) (m_map ft m).
Proof.
  intros K Sk F. eapply gives_bind.
  - apply gives_each with (g := fun kv => (ft (fst kv), ft (snd kv))). unfold map_texts in F. rewrite Forall_flat_map in F.
    eapply Forall_impl; [|exact F]. intros x Fx. inversion Fx as [|? ? F1 F2]; subst. inversion F2 as [|? ? F3 _]; subst.
    eapply gives_bind; [exact F1|]. eapply gives_bind; [exact F3|]. apply gives_ret.
  - fold (m_map ft m). rewrite ProofJson2.collect_same; [apply gives_ret|]. unfold keyed, m_map in *. rewrite map_map. cbn [fst].
    unfold same_keys in Sk. rewrite Forall_forall in Sk. rewrite (map_ext_in _ fst); auto.
Qed.
Lemma gives_uri u : ok_u u -> gives (g_uri up u) u.
Proof. intros H n. unfold g_uri. now rewrite H. Qed.
Fixpoint gives_desc d : ok_desc d -> desc_maps same_keys d -> desc_uris ok_u d -> Forall G (desc_texts d) -> gives (g_desc q up d) (m_desc ft d)
with gives_data x : ok_data x -> data_maps same_keys x -> data_uris ok_u x -> Forall G (data_texts x) -> gives (g_data q up x) (m_data ft x).
Proof.
  - destruct d as [t|x]; intros O M U F.
    + inversion F; subst. eapply gives_bind; [eassumption|apply gives_ret].
    + eapply gives_bind; [exact (gives_data x O M U F)|apply gives_ret].
  - destruct x as [u d p]. intros [O1 O2] [M1 M2] [U1 U2] F. cbn [data_texts] in F. apply Forall_app in F as [F1 F2].
    eapply gives_bind; [apply gives_uri, U1|].
    eapply gives_bind with (x := match d with Some y => Some (m_desc ft y) | None => None end).
    + destruct d as [y|]; [|apply gives_ret]. eapply gives_bind; [exact (gives_desc y O1 M1 U2 F1)|apply gives_ret].
    + eapply gives_bind with (x := option_map (m_map ft) p).
      * destruct p as [m|]; [|apply gives_ret]. eapply gives_bind; [exact (gives_map m O2 M2 F2)|apply gives_ret].
      * apply gives_ret.
Qed.
Lemma gives_link l : ok_link l -> link_maps same_keys l -> link_uris ok_u l -> Forall G (link_texts l) -> gives (g_link q up l) (m_link ft l).
Proof.
  intros O M U F. destruct l; cbn [g_link m_link]; try (eapply gives_bind; [exact (gives_data _ O M U F)|apply gives_ret]).
  inversion F as [|? ? F1 F2]; subst. eapply gives_bind; [exact F1|]. eapply gives_bind; [exact (gives_data _ O M U F2)|apply gives_ret].
Qed.
Ltac each := rewrite ?Forall_flat_map, ?all_forall, ?Forall_forall in *; intros x I.
Lemma gives_dc c : ok_dc c -> dc_maps same_keys c -> dc_uris ok_u c -> Forall G (dc_texts c) -> gives (g_dc q up c) (m_dc ft shallow c).
Proof.
  induction c as [t|k cs IH|k|l] using dcontent_ind'; intros O M U F; cbn [g_dc m_dc ok_dc dc_maps dc_uris dc_texts] in *.
  - inversion F; subst. eapply gives_bind; [eassumption|apply gives_ret].
  - eapply gives_bind; [apply gives_locs with (g := m_dc ft shallow)|apply gives_ret].
    rewrite Forall_flat_map in F. rewrite all_forall, Forall_forall in *. intros x I. exact (IH x I (O x I) (M x I) (U x I) (F x I)).
  - apply gives_ret.
  - eapply gives_bind; [exact (gives_link _ O M U F)|apply gives_ret].
Qed.
Lemma gives_inline i : ok_inline i -> inline_maps same_keys i -> inline_uris ok_u i -> Forall G (inline_texts i) -> gives (g_inline q up i) (m_inline ft shallow i).
Proof.
  intros O M U F. destruct i as [t|k cs|k|l|ts|t|t|[t|ls]]; cbn [g_inline m_inline ok_inline inline_maps inline_uris inline_texts] in *;
    try (inversion F; subst; eapply gives_bind; [eassumption|apply gives_ret]; fail);
    try (eapply gives_bind; [apply gives_each; exact F|apply gives_ret]; fail).
  - eapply gives_bind; [apply gives_locs with (g := m_dc ft shallow)|apply gives_ret].
    rewrite Forall_flat_map in F. rewrite all_forall, Forall_forall in *. intros x I. exact (gives_dc _ (O x I) (M x I) (U x I) (F x I)).
  - apply gives_ret.
  - eapply gives_bind; [exact (gives_link _ O M U F)|apply gives_ret].
Qed.
Lemma gives_cont c : ok_cont c -> cont_maps same_keys c -> cont_uris ok_u c -> Forall G (cont_texts c) -> gives (g_cont q up c) (m_cont ft shallow c).
Proof.
  intros O M U F. unfold ok_cont, cont_maps, cont_uris, cont_texts in *. apply gives_locs.
  rewrite Forall_flat_map in F. rewrite all_forall, Forall_forall in *. intros x I. exact (gives_inline _ (O x I) (M x I) (U x I) (F x I)).
Qed.
Lemma gives_td t : ok_td t -> td_values (cont_maps same_keys) t -> td_values (cont_uris ok_u) t -> Forall G (td_texts t) -> gives (g_td q up t) (m_td ft shallow t).
Proof.
  intros [O1 O2] [M1 M2] [U1 U2] F. apply Forall_app in F as [F1 F2].
  eapply gives_bind; [apply gives_loc with (g := m_cont ft shallow); exact (gives_cont _ O1 M1 U1 F1)|].
  eapply gives_bind; [|apply gives_ret]. apply gives_loc with (g := map (m_loc shallow (m_cont ft shallow))). apply gives_locs.
  rewrite Forall_flat_map in F2. rewrite all_forall, Forall_forall in *. intros x I. exact (gives_cont _ (O2 x I) (M2 x I) (U2 x I) (F2 x I)).
Qed.
Lemma gives_cell c : ok_cell c -> cell_maps same_keys c -> cell_uris ok_u c -> Forall G (cell_texts c) -> gives (g_cell q up c) (m_cell ft shallow c).
Proof. destruct c; intros O M U F; try apply gives_ret. eapply gives_bind; [exact (gives_cont _ O M U F)|apply gives_ret]. Qed.
Lemma gives_table t : ok_table t -> all (fun kv => cell_maps same_keys (l_val (snd kv))) (t_cells t) ->
  all (fun kv => cell_uris ok_u (l_val (snd kv))) (t_cells t) -> Forall G (flat_map (fun kv => cell_texts (l_val (snd kv))) (t_cells t)) ->
  gives (g_table q up t) (m_table ft shallow t).
Proof.
  intros (K & C & O) M U F. eapply gives_bind.
  - apply gives_each with (g := fun kv => (fst kv, m_loc shallow (m_cell ft shallow) (snd kv))).
    rewrite Forall_flat_map in F. rewrite all_forall, Forall_forall in *. intros kv I. eapply gives_bind; [|apply gives_ret].
    apply gives_loc. exact (gives_cell _ (O _ I) (M _ I) (U _ I) (F _ I)).
  - assert (E : map fst (map (fun kv : cellpos * located cell => (fst kv, m_loc shallow (m_cell ft shallow) (snd kv))) (t_cells t)) = map fst (t_cells t)).
    { rewrite map_map. reflexivity. }
    rewrite (table_new_same _ _ t); [apply gives_ret| |exact C|exact E]. unfold keyed in *. now rewrite E.
Qed.
Notation GB := (fun b => ok_block b -> block_maps same_keys b -> block_uris ok_u b -> Forall G (block_texts b) -> gives (g_block q up b) (m_block ft shallow b)).
Notation GI := (fun i => ok_item i -> item_maps same_keys i -> item_uris ok_u i -> Forall G (item_texts i) -> gives (g_item q up i) (m_item ft shallow i)).
Lemma gives_block_item : (forall b, GB b) /\ (forall i, GI i).
Proof.
  apply (ProofJson3.both_ind GB GI).
  - intros b N O M U F. destruct b as [ls|d| |h|items|m|ls|p|c|t]; cbn [g_block m_block] in *.
    + eapply gives_bind; [apply gives_each; exact F|apply gives_ret].
    + eapply gives_bind; [apply gives_locs with (g := m_td ft shallow)|apply gives_ret].
      cbn [ok_block block_maps block_uris block_texts] in *. rewrite Forall_flat_map in F. rewrite all_forall, Forall_forall in *.
      intros x I. exact (gives_td _ (O x I) (M x I) (U x I) (F x I)).
    + apply gives_ret.
    + eapply gives_bind; [eapply gives_bind; [exact (gives_cont _ O M U F)|apply gives_ret]|apply gives_ret].
    + exfalso. now apply (N items).
    + apply Forall_app in F as [F1 F2]. eapply gives_bind; [|apply gives_ret]. eapply gives_bind; [exact (gives_opt _ F1)|].
      eapply gives_bind; [apply gives_each; exact F2|apply gives_ret].
    + eapply gives_bind; [apply gives_each with (g := m_cont ft shallow)|apply gives_ret].
      cbn [ok_block block_maps block_uris block_texts] in *. rewrite Forall_flat_map in F. rewrite all_forall, Forall_forall in *.
      intros x I. exact (gives_cont _ (O x I) (M x I) (U x I) (F x I)).
    + destruct p; cbn [g_placeholder]; cbn [block_texts placeholder_texts] in F; (eapply gives_bind; [|apply gives_ret]); try apply gives_ret;
        try (inversion F; subst; eapply gives_bind; [eassumption|apply gives_ret]; fail).
      inversion F as [|? ? F1 F2]; subst. inversion F2; subst. eapply gives_bind; [exact F1|]. eapply gives_bind; [eassumption|apply gives_ret].
    + apply Forall_app in F as [F1 F2]. apply Forall_app in F2 as [F2 F3]. eapply gives_bind; [|apply gives_ret].
      eapply gives_bind; [exact (gives_opt _ F1)|]. eapply gives_bind; [exact (gives_map _ O M F2)|].
      eapply gives_bind; [apply gives_each; exact F3|apply gives_ret].
    + eapply gives_bind; [exact (gives_table _ O M U F)|apply gives_ret].
  - intros items H O M U F. cbn [g_block m_block ok_block block_maps block_uris block_texts] in *.
    eapply gives_bind; [apply gives_locs with (g := m_item ft shallow)|apply gives_ret].
    rewrite Forall_flat_map in F. rewrite all_forall, Forall_forall in *. intros x I. exact (H x I (O x I) (M x I) (U x I) (F x I)).
  - intros ty suf pos cs todo H O M U F. cbn [g_item m_item ok_item item_maps item_uris item_texts] in *. apply Forall_app in F as [F1 F2].
    eapply gives_bind with (x := m_item_ty ft ty).
    + destruct ty as [o|[| |p]]; try apply gives_ret. inversion F1; subst. eapply gives_bind; [eassumption|apply gives_ret].
    + eapply gives_bind; [apply gives_locs with (g := m_block ft shallow)|apply gives_ret].
      rewrite Forall_flat_map in F2. rewrite all_forall, Forall_forall in *. intros x I. exact (H x I (O x I) (M x I) (U x I) (F2 x I)).
Qed.
Theorem steady_page p n : ok_page p -> page_maps same_keys p -> page_uris ok_u p ->
  (forall t n, In t (page_texts p) -> q t n = Some (n, ft t)) -> g_page q up p n = Some (n, m_page ft shallow p).
Proof.
  intros O M U F. assert (F' : Forall G (page_texts p)) by (apply Forall_forall; intros t I k; now apply F). clear F.
  revert n. change (gives (g_page q up p) (m_page ft shallow p)). apply gives_locs. unfold ok_page, page_maps, page_uris, page_texts in *.
  rewrite Forall_flat_map in F'. rewrite all_forall, Forall_forall in *. intros x I. exact (proj1 gives_block_item _ (O x I) (M x I) (U x I) (F' x I)).
Qed.
End Steady.
