(** Proofs about relative links and link resolution. *)
From Verif Require Import Base ModelSpan ModelAst ModelLink ModelElem ModelPath SpecPath ProofBase ProofElem2 ProofPath.

(** * The components of a list of names *)

Definition seg_comps (s : str) : path := match s with [] => [] | _ => [classify s] end.

Lemma seg_path s : ~ In x2f s -> path_of_str s = seg_comps s.
Proof.
  intro H. unfold path_of_str. rewrite split_on_none by auto. destruct s as [|b s]; auto.
  cbn [filter map clean]. assert (Hb : b <> x2f) by (intros ->; apply H; now left).
  destruct b; try reflexivity. congruence.
Qed.

Lemma seg_nonroot s : ~ In CRoot (seg_comps s).
Proof.
  destruct s as [|b s]; cbn; auto. intros [K|[]]. unfold classify in K.
  destruct (str_eqb _ _); [discriminate|]. destruct (str_eqb _ _); discriminate.
Qed.

Lemma segs_nonroot l : ~ In CRoot (flat_map seg_comps l).
Proof. intro K. apply in_flat_map in K as (s & _ & K). now apply seg_nonroot in K. Qed.

Lemma nonroot_has p : ~ In CRoot p -> has_root p = false.
Proof. destruct p as [|c p]; auto. destruct c; auto. intro H. exfalso. apply H. now left. Qed.

Lemma data_fold segs : Forall (fun s => ~ In x2f s) segs -> forall p, ~ In CRoot p ->
  fold_left (fun p seg => path_join p (path_of_str seg)) segs (clean p) = clean (p ++ flat_map seg_comps segs).
Proof.
  induction 1 as [|s segs Hs _ IH]; intros p Hp; cbn [fold_left flat_map].
  - now rewrite app_nil_r.
  - rewrite seg_path by auto. unfold path_join at 2. rewrite (nonroot_has (seg_comps s)) by apply seg_nonroot.
    rewrite clean_clean_app, IH, <- app_assoc; auto. rewrite in_app_iff. intros [K|K]; auto.
    now apply seg_nonroot in K.
Qed.

Lemma data_path_spec d : Forall (fun s => ~ In x2f s) (u_segs (ld_uri d)) ->
  data_path d = if u_abs (ld_uri d) then CRoot :: drop_cur (flat_map seg_comps (u_segs (ld_uri d)))
                else clean (flat_map seg_comps (u_segs (ld_uri d))).
Proof.
  intro H. unfold data_path. set (p := fold_left _ _ _).
  assert (E : p = clean (flat_map seg_comps (u_segs (ld_uri d)))) by exact (data_fold _ H [] (fun x => x)).
  rewrite E. cbv zeta.
  destruct (u_abs (ld_uri d)); auto. unfold path_join.
  rewrite nonroot_has by (apply clean_nonroot, segs_nonroot). cbn [app clean]. now rewrite drop_cur_clean.
Qed.

(** * Traversal *)

Lemma rel_step_below buf s : rel_step buf (CNorm s) = buf ++ [CNorm s].
Proof. reflexivity. Qed.

Lemma traverse_names names buf : fold_left rel_step (map CNorm names) buf = buf ++ map CNorm names.
Proof.
  revert buf. induction names as [|n l IH]; intro buf; cbn [map fold_left]; [now rewrite app_nil_r|].
  rewrite IH, rel_step_below, <- app_assoc. reflexivity.
Qed.

Lemma classify_eq s : classify s = if str_eqb s (bs ".") then CCur else if str_eqb s (bs "..") then CParent else CNorm s.
Proof. reflexivity. Qed.

Lemma removelast_app_ne {A} (a b : list A) : b <> [] -> removelast (a ++ b) = a ++ removelast b.
Proof. apply removelast_app. Qed.

Lemma traverse_segs top segs : forall dir, stays (length dir) segs = true ->
  fold_left rel_step (drop_cur (flat_map seg_comps segs)) (below (top ++ dir)) =
  below (top ++ follow_names (fun s => s) dir segs).
Proof.
  induction segs as [|s segs IH]; intros dir H; cbn [flat_map]; [reflexivity|].
  cbn [stays follow_names] in *. rewrite drop_cur_app, fold_left_app.
  destruct s as [|b s]; [now apply IH|]. change (str_eqb (b :: s) []) with false in *.
  rewrite !orb_false_l in *. cbn [seg_comps].
  rewrite classify_eq. destruct (str_eqb (b :: s) (bs ".")); [now apply IH|].
  destruct (str_eqb (b :: s) (bs "..")).
  - cbn [drop_cur filter is_cur negb fold_left].
    destruct dir as [|n dir _] using rev_ind; [discriminate|].
    rewrite app_length, Nat.add_comm in H. cbn [length Nat.add] in H.
    rewrite removelast_last. rewrite <- IH; auto. f_equal. unfold below. rewrite app_assoc, !map_app. cbn [map].
    unfold rel_step. rewrite rev_app_distr. cbn [rev app]. now rewrite rev_involutive.
  - cbn [drop_cur filter is_cur negb fold_left]. rewrite rel_step_below.
    rewrite <- IH.
    + f_equal. unfold below. rewrite app_assoc, !map_app. reflexivity.
    + rewrite app_length, Nat.add_comm. exact H.
Qed.

Lemma follow_app dec a b dir : follow_names dec dir (a ++ b) = follow_names dec (follow_names dec dir a) b.
Proof.
  revert dir. induction a as [|s a IH]; intro dir; cbn [app follow_names]; auto.
  destruct (_ || _); auto. destruct (str_eqb _ _); auto.
Qed.

Lemma follow_name dec dir n : name_ok n -> follow_names dec dir [n] = dir ++ [dec n].
Proof.
  intros (H1 & H2 & H3 & _). cbn [follow_names].
  destruct (str_eqb n []) eqn:E1; [apply str_eqb_eq in E1; congruence|].
  destruct (str_eqb n (bs ".")) eqn:E2; [apply str_eqb_eq in E2; congruence|].
  destruct (str_eqb n (bs "..")) eqn:E3; [apply str_eqb_eq in E3; congruence|]. reflexivity.
Qed.

Lemma follow_list dec dir l : Forall name_ok l -> follow_names dec dir l = dir ++ map dec l.
Proof.
  intro H. revert dir. induction H as [|n l Hn H IH]; intro dir; [now rewrite app_nil_r|].
  change (n :: l) with ([n] ++ l). rewrite follow_app, follow_name, IH by auto.
  cbn. now rewrite <- app_assoc.
Qed.

Lemma follow_map dec segs : forall dir,
  follow_names dec (map dec dir) segs = map dec (follow_names (fun s => s) dir segs).
Proof.
  induction segs as [|s segs IH]; intro dir; cbn [follow_names]; auto.
  destruct (_ || _); auto. destruct (str_eqb _ _).
  - rewrite <- IH. f_equal. destruct dir as [|n dir _] using rev_ind; auto.
    rewrite map_app. cbn [map]. now rewrite !removelast_last.
  - rewrite <- IH. f_equal. now rewrite map_app.
Qed.

Lemma follow_up dec k dir rest : k = length rest ->
  follow_names dec (dir ++ rest) (repeat (bs "..") k) = dir.
Proof.
  intros ->. revert dir. induction rest as [|n rest IH] using rev_ind; intro dir; cbn [length repeat].
  - cbn. now rewrite app_nil_r.
  - rewrite app_length, Nat.add_comm. cbn [length Nat.add repeat follow_names].
    change (str_eqb (bs "..") [] || str_eqb (bs "..") (bs ".")) with false.
    change (str_eqb (bs "..") (bs "..")) with true. cbv iota.
    rewrite app_assoc, removelast_last. apply IH.
Qed.

(** * The relative link between two files *)

Lemma strip_common_spec a b : forall f t, strip_common (below a) (below b) = (f, t) ->
  exists c a' b', a = c ++ a' /\ b = c ++ b' /\ f = below a' /\ t = below b' /\
    match a', b' with x :: _, y :: _ => x <> y | _, _ => True end.
Proof.
  revert b. induction a as [|x a IH]; intros b f t E.
  - cbn in E. injection E as <- <-. exists [], [], b. auto.
  - destruct b as [|y b]; cbn [below map strip_common] in E.
    + injection E as <- <-. exists [], (x :: a), []. auto.
    + cbn [comp_eqb] in E. destruct (str_eqb x y) eqn:Exy.
      * apply str_eqb_eq in Exy as ->. destruct (IH b f t E) as (c & a' & b' & -> & -> & ? & ? & ?).
        exists (y :: c), a', b'. auto.
      * injection E as <- <-. exists [], (x :: a), (y :: b). repeat split; auto.
        intros ->. rewrite str_eqb_refl in Exy. discriminate.
Qed.

Lemma map_parent {A} (l : list A) : map (fun _ => CParent) l = repeat CParent (length l).
Proof. induction l; cbn; congruence. Qed.

Lemma comp_str_parents k : flat_map comp_str (repeat CParent k) = repeat (bs "..") k.
Proof. induction k; cbn [repeat flat_map comp_str app]; congruence. Qed.

Lemma comp_str_names l : flat_map comp_str (below l) = l.
Proof. induction l as [|n l IH]; cbn; [auto|]. unfold below in IH. now rewrite IH. Qed.

Lemma join_nonempty l x : In x l -> x <> [] -> join (bs "/") l <> [].
Proof.
  destruct l as [|a [|b l]]; cbn; [tauto| |].
  - intros [->|[]]; auto.
  - intros H1 H2 K. apply app_eq_nil in K as [_ K]. discriminate.
Qed.

Lemma decode_unescaped s : unescaped s -> percent_decode s = s.
Proof.
  induction s as [|b s IH]; intro H; cbn [percent_decode]; auto.
  destruct (beqb_spec b x25) as [->|]; [exfalso; apply H; now left|].
  rewrite IH; auto. intro K. apply H. now right.
Qed.

Lemma map_decode_unescaped l : Forall unescaped l -> map percent_decode l = l.
Proof. induction 1 as [|s l H _ IH]; cbn; auto. now rewrite decode_unescaped, IH. Qed.

Lemma rel_text_follow P Q a b :
  traversal (make_path_relative P) = below a -> traversal (make_path_relative Q) = below b ->
  Forall unescaped a -> Forall name_ok b -> ~ comparable a b ->
  follow a (relative_link_text P Q) = map percent_decode b.
Proof.
  intros HS HT Hu Hb Hc. unfold relative_link_text, rel_relative. rewrite HS, HT.
  destruct (strip_common (below a) (below b)) as [f t] eqn:E.
  apply strip_common_spec in E as (c & a' & b' & -> & -> & -> & -> & Hd).
  destruct a' as [|x a'].
  - destruct b' as [|y b'].
    + cbn. rewrite app_nil_r. rewrite !app_nil_r in Hu. now rewrite map_decode_unescaped.
    + exfalso. apply Hc. left. split; [exists (y :: b'); now rewrite app_nil_r|].
      intro K. apply app_inv_head in K. discriminate.
  - assert (Hrl : removelast (c ++ x :: a') = c ++ removelast (x :: a')) by (apply removelast_app; discriminate).
    destruct b' as [|y b'].
    + rewrite (app_nil_r c) in *. destruct a' as [|x' a'].
      { exfalso. apply Hc. right. split; [now destruct c|]. rewrite Hrl. cbn. now rewrite app_nil_r. }
      apply Forall_app in Hu as [Hu0 Hu]. rewrite map_decode_unescaped by auto.
      match goal with |- follow _ ?t = _ =>
        assert (Ht : t = join (bs "/") (repeat (bs "..") (S (length a')))) end.
      { cbn [below map app]. rewrite app_nil_r, <- (comp_str_parents (S (length a'))).
        do 2 f_equal. cbn [repeat]. f_equal. rewrite map_parent, map_length. reflexivity. }
      rewrite Ht.
      assert (Hne : join (bs "/") (repeat (bs "..") (S (length a'))) <> [])
        by (apply (join_nonempty _ (bs "..")); [now left | discriminate]).
      unfold follow. destruct (join (bs "/") (repeat (bs "..") (S (length a')))) as [|h tx] eqn:Ej; [congruence|].
      rewrite <- Ej, (split_on_join x2f), Hrl; [|discriminate|].
      * apply follow_up. clear. revert x x'. induction a' as [|z a' IH]; intros x x'; auto.
        change (removelast (x :: x' :: z :: a')) with (x :: removelast (x' :: z :: a')). cbn [length].
        now rewrite <- (IH x' z).
      * apply Forall_forall. intros z Hz. apply repeat_spec in Hz as ->. cbn. intuition discriminate.
    + cbn [below map]. cbn [app]. fold (below a').
      rewrite map_parent. change (CNorm y :: map CNorm b') with (below (y :: b')).
      rewrite flat_map_app, comp_str_parents, comp_str_names.
      unfold below. rewrite map_length.
      apply Forall_app in Hb as [Hb0 Hb]. apply Forall_app in Hu as [Hu0 Hu].
      assert (Hpc : Forall (fun p : str => ~ In x2f p) (repeat (bs "..") (length a') ++ y :: b')).
      { apply Forall_app. split.
        - apply Forall_forall. intros z Hz. apply repeat_spec in Hz as ->. cbn. intuition discriminate.
        - eapply Forall_impl; [|exact Hb]. now intros z (_ & _ & _ & K). }
      assert (Hne : join (bs "/") (repeat (bs "..") (length a') ++ y :: b') <> []).
      { apply (join_nonempty _ y); [apply in_app_iff; right; now left|]. apply Forall_inv in Hb. apply Hb. }
      unfold follow. destruct (join (bs "/") (repeat (bs "..") (length a') ++ y :: b')) as [|h tx] eqn:Ej; [congruence|].
      rewrite <- Ej. rewrite (split_on_join x2f); auto.
      2:{ intro K. apply app_eq_nil in K as [_ K]. discriminate. }
      rewrite follow_app, removelast_app_ne by discriminate.
      rewrite follow_up.
      * rewrite follow_list by auto. rewrite map_app. now rewrite (map_decode_unescaped c).
      * clear. revert x. induction a' as [|z a' IH]; intro x; auto. cbn [removelast length].
        now rewrite (IH z).
Qed.

Lemma root_relative names : make_path_relative (at_root names) = below names.
Proof.
  unfold make_path_relative, at_root. cbn [filter is_root negb]. exact (below_relative names).
Qed.

Lemma traversal_below names : traversal (below names) = below names.
Proof. unfold traversal, below. now rewrite traverse_names. Qed.

Lemma relative_link_follow a b :
  Forall unescaped a -> Forall unescaped b -> Forall name_ok b -> ~ comparable a b ->
  follow a (relative_link_text (at_root a) (at_root b)) = b.
Proof.
  intros Ha Hb Hn Hc. rewrite (rel_text_follow _ _ a b); auto using map_decode_unescaped;
    now rewrite root_relative, traversal_below.
Qed.

(** * Link resolution *)

Lemma decode_pct h1 h2 l :
  percent_decode (x25 :: h1 :: h2 :: l) =
  match hex_val h1, hex_val h2 with
  | Some a, Some c => byte_of (16 * a + c) :: percent_decode l
  | _, _ => x25 :: percent_decode (h1 :: h2 :: l)
  end.
Proof. reflexivity. Qed.

Lemma decode_other b l : b <> x25 -> percent_decode (b :: l) = b :: percent_decode l.
Proof. intro H. cbn [percent_decode]. destruct (beqb_spec b x25); [congruence | reflexivity]. Qed.

Lemma decode_dot a e : percent_decode (dotted a e) = dotted (percent_decode a) (percent_decode e).
Proof.
  unfold dotted. change (bs ".") with [x2e]. cbn [app].
  assert (G : forall n a, length a <= n -> percent_decode (a ++ x2e :: e) = percent_decode a ++ x2e :: percent_decode e).
  { induction n as [|n IH]; intros l Hl.
    { destruct l; [|cbn in Hl; lia]. apply decode_other. discriminate. }
    destruct l as [|b l]; [apply decode_other; discriminate|]. cbn [length] in Hl.
    destruct (byte_eq_dec b x25) as [->|Hb].
    2:{ cbn [app]. rewrite !decode_other by auto. rewrite IH by lia. reflexivity. }
    destruct l as [|h1 [|h2 l]]; cbn [app]; cbn [length] in Hl.
    - assert (E : percent_decode (x25 :: x2e :: e) = x25 :: percent_decode (x2e :: e)).
      { destruct e as [|h2 e']; [reflexivity|]. rewrite decode_pct. reflexivity. }
      rewrite E, decode_other by discriminate. reflexivity.
    - rewrite decode_pct. change (hex_val x2e) with (@None nat).
      assert (E : percent_decode [x25; h1] = x25 :: percent_decode [h1]) by reflexivity.
      rewrite E. specialize (IH [h1]). cbn [app] in IH. rewrite IH by (cbn; lia).
      destruct (hex_val h1); reflexivity.
    - rewrite !decode_pct. pose proof (IH l) as I1. pose proof (IH (h1 :: h2 :: l)) as I2. cbn [app length] in I2.
      destruct (hex_val h1), (hex_val h2); cbn [app]; rewrite ?I1, ?I2 by lia; reflexivity. }
  apply (G (length a)). auto.
Qed.

Lemma stays_app d a b : stays d (a ++ b) = true -> stays d a = true.
Proof.
  revert d. induction a as [|s a IH]; intros d H; cbn [app stays] in *; auto.
  destruct (_ || _); auto. destruct (str_eqb _ _); auto. destruct d; auto.
Qed.

Lemma names_follow (P : str -> Prop) segs : forall dir,
  Forall P dir -> Forall (fun s => s = [] \/ s = bs "." \/ s = bs ".." \/ P s) segs ->
  Forall P (follow_names (fun s => s) dir segs).
Proof.
  induction segs as [|s segs IH]; intros dir Hd Hs; cbn [follow_names]; auto.
  apply Forall_cons_iff in Hs as [Hs1 Hs2].
  destruct (str_eqb s []) eqn:E1; [now apply IH|]. destruct (str_eqb s (bs ".")) eqn:E2; [now apply IH|]. cbn [orb].
  destruct (str_eqb s (bs "..")) eqn:E3.
  - apply IH; auto. destruct dir as [|n dir _] using rev_ind; auto. rewrite removelast_last.
    apply Forall_app in Hd. tauto.
  - apply IH; auto. apply Forall_app. split; auto. constructor; auto.
    destruct Hs1 as [->|[->|[->|Hs1]]]; auto; discriminate.
Qed.

Lemma seg_name s : ~ In x2f s -> s = [] \/ s = bs "." \/ s = bs ".." \/ name_ok s.
Proof.
  intro H. destruct (list_eq_dec byte_eq_dec s []); auto. destruct (list_eq_dec byte_eq_dec s (bs ".")); auto.
  destruct (list_eq_dec byte_eq_dec s (bs "..")); auto. unfold name_ok. tauto.
Qed.

(** * Targets *)

Definition target_comps (hp base segs : list str) (m : str) : path :=
  at_root hp ++ below base ++ drop_cur (flat_map seg_comps segs) ++ [CNorm m].

Lemma drop_nonroot segs : ~ In CRoot (drop_cur (flat_map seg_comps segs)).
Proof. apply drop_cur_nonroot, segs_nonroot. Qed.

Lemma target_traversal hp base segs m : stays (length base) segs = true ->
  traversal (make_path_relative (target_comps hp base segs m)) =
  below (hp ++ follow_names (fun s => s) base segs ++ [m]).
Proof.
  intro H. unfold target_comps.
  assert (E : make_path_relative (at_root hp ++ below base ++ drop_cur (flat_map seg_comps segs) ++ [CNorm m]) =
              below (hp ++ base) ++ drop_cur (flat_map seg_comps segs) ++ [CNorm m]).
  { unfold make_path_relative, at_root. cbn [app filter is_root negb].
    assert (N : ~ In CRoot (map CNorm hp ++ below base ++ drop_cur (flat_map seg_comps segs) ++ [CNorm m])).
    { rewrite !in_app_iff. intros [K|[K|[K|K]]]; revert K; try apply norm_no_root; try apply drop_nonroot.
      cbn. intuition discriminate. }
    rewrite forallb_filter_id.
    - rewrite clean_id.
      + unfold below. rewrite map_app, <- app_assoc. reflexivity.
      + intro K.
        assert (K' : In CCur (map CNorm hp ++ below base ++ drop_cur (flat_map seg_comps segs) ++ [CNorm m])).
        { revert K. generalize (map CNorm hp ++ below base ++ drop_cur (flat_map seg_comps segs) ++ [CNorm m]).
          intros l K. destruct l; cbn in *; auto. }
        rewrite !in_app_iff in K'. destruct K' as [K'|[K'|[K'|K']]]; revert K'; try apply norm_no_cur; try apply in_drop_cur.
        cbn. intuition discriminate.
    - apply forallb_forall. intros x Hx. destruct x; auto. }
  rewrite E. unfold traversal. rewrite !fold_left_app.
  rewrite (traverse_names (hp ++ base) [] : fold_left rel_step (below (hp ++ base)) [] = _).
  cbn [app]. change (map CNorm (hp ++ base)) with (below (hp ++ base)).
  rewrite traverse_segs by auto. cbn [fold_left]. rewrite rel_step_below.
  unfold below. rewrite !map_app. cbn [map]. now rewrite <- !app_assoc.
Qed.

Lemma pages_incomparable A B p q : no_page A -> no_page B -> page_name p -> page_name q ->
  ~ comparable (A ++ [p]) (B ++ [q]).
Proof.
  assert (G : forall A B p q, no_page B -> page_name p -> A ++ [p] <> B ++ [q] -> ~ prefix_of (A ++ [p]) (B ++ [q])).
  { clear. intros A B p q HB Hp Hne [r E]. destruct r as [|z r _] using rev_ind.
    - rewrite app_nil_r in E. congruence.
    - rewrite app_assoc in E. apply app_inj_tail in E as [E _]. rewrite E in HB.
      apply Forall_app in HB as [HB _]. apply Forall_app in HB as [_ HB]. apply Forall_inv in HB. auto. }
  intros HA HB Hp Hq [[K Hne]|[_ K]]; [now apply (G A B p q) in K|].
  rewrite removelast_last in K. rewrite <- K in HA. apply Forall_app in HA as [_ HA]. apply Forall_inv in HA. auto.
Qed.

Lemma rsplit_sub n c : In c (fst (rsplit_dot n)) -> In c n.
Proof.
  unfold rsplit_dot. destruct (find_pos _ _) as [i|]; auto.
  destruct (firstn (length n - 1 - i) n) as [|b l] eqn:E; auto. cbn [fst]. rewrite <- E.
  intro H. rewrite <- (firstn_skipn (length n - 1 - i) n). apply in_app_iff. now left.
Qed.

Lemma html_unescaped n : unescaped n -> unescaped (dotted (fst (rsplit_dot n)) (bs "html")).
Proof.
  intros H K. unfold dotted in K. rewrite !in_app_iff in K. destruct K as [K|K].
  - apply H. now apply rsplit_sub.
  - cbn in K. intuition discriminate.
Qed.

Lemma dotted_html_ok n : name_ok n -> name_ok (dotted n (bs "html")).
Proof.
  intros (H1 & _ & _ & H4). apply dotted_name; auto; [discriminate|]. cbn. intuition discriminate.
Qed.

(** The link from a page to a target of some wiki. *)
Lemma link_leads hp sd sn hp' base segs n :
  Forall name_ok hp' -> Forall name_ok base -> name_ok n -> Forall (fun s => ~ In x2f s) segs ->
  stays (length base) segs = true ->
  Forall unescaped (hp ++ sd ++ [sn]) -> map percent_decode hp' = hp' -> map percent_decode base = base ->
  no_page (hp ++ sd) -> no_page (hp' ++ base ++ segs) ->
  follow (hp ++ sd ++ [dotted (fst (rsplit_dot sn)) (bs "html")])
    (relative_link_text (at_root (hp ++ sd ++ [dotted (fst (rsplit_dot sn)) (bs "html")]))
       (target_comps hp' base segs (dotted n (bs "html")))) =
  hp' ++ follow_names percent_decode base segs ++ [dotted (percent_decode n) (bs "html")].
Proof.
  intros H1 H2 H3 H4 H5 H6 H7 H8 H9 H10.
  rewrite (rel_text_follow _ _ (hp ++ sd ++ [dotted (fst (rsplit_dot sn)) (bs "html")])
             (hp' ++ follow_names (fun s => s) base segs ++ [dotted n (bs "html")])).
  - rewrite !map_app, H7. cbn [map]. rewrite decode_dot. change (percent_decode (bs "html")) with (bs "html").
    rewrite <- follow_map, H8. reflexivity.
  - rewrite root_relative. apply traversal_below.
  - now apply target_traversal.
  - rewrite !app_assoc in *. apply Forall_app in H6 as [H6 H6']. apply Forall_app. split; auto.
    constructor; auto. apply html_unescaped. now apply Forall_inv in H6'.
  - apply Forall_app. split; auto. apply Forall_app. split; [|constructor; auto using dotted_html_ok].
    apply names_follow; auto. eapply Forall_impl; [|exact H4]. apply seg_name.
  - rewrite !app_assoc. unfold no_page in *. apply Forall_app in H10 as [H10 H11]. apply Forall_app in H11 as [H11 H12].
    apply pages_incomparable; try (now eexists); auto. apply Forall_app. split; auto.
    apply names_follow; auto. eapply Forall_impl; [|exact H12]. auto.
Qed.

(** * Outputs of links *)

Lemma with_ext_target hp base segs n :
  n <> [] -> no_dot n ->
  with_extension (at_root hp ++ below base ++ drop_cur (flat_map seg_comps segs) ++ [CNorm n]) (bs "html") =
  target_comps hp base segs (dotted n (bs "html")).
Proof.
  intros H1 H2. unfold target_comps. rewrite !app_assoc. rewrite with_extension_last; auto.
  - now rewrite rsplit_plain.
  - discriminate.
  - unfold at_root. cbn. rewrite !in_app_iff. intros [[K|K]|K]; revert K; try apply norm_no_cur. apply in_drop_cur.
  - discriminate.
Qed.

Lemma flat_name segs n : name_ok n -> flat_map seg_comps (segs ++ [n]) = flat_map seg_comps segs ++ [CNorm n].
Proof.
  intros (H1 & H2 & H3 & _). rewrite flat_map_app. f_equal. cbn [flat_map]. destruct n as [|b n]; [congruence|].
  cbn [seg_comps]. rewrite classify_name by auto. reflexivity.
Qed.

Lemma drop_flat_name segs n : name_ok n ->
  drop_cur (flat_map seg_comps (segs ++ [n])) = drop_cur (flat_map seg_comps segs) ++ [CNorm n].
Proof. intro H. now rewrite flat_name, drop_cur_app. Qed.

(** A relative path given to [make_output_path]. *)
Lemma output_relative w wp hp base segs n :
  w_path w = at_root wp -> w_html w = at_root hp -> name_ok n -> no_dot n ->
  make_output_path w (clean (below base ++ flat_map seg_comps (segs ++ [n]))) (bs "html") =
  Some (target_comps hp base segs (dotted n (bs "html"))).
Proof.
  intros Hp Hh Hn Hd.
  assert (R : ~ In CRoot (below base ++ flat_map seg_comps (segs ++ [n]))).
  { rewrite in_app_iff. intros [K|K]; revert K; [apply norm_no_root | apply segs_nonroot]. }
  rewrite (make_output_rel w wp hp _ (below base ++ drop_cur (flat_map seg_comps segs) ++ [CNorm n])); auto.
  - rewrite with_ext_target; auto. apply Hn.
  - right. right. split; [apply nonroot_has, clean_nonroot, R|].
    rewrite make_path_relative_below by (now apply clean_nonroot).
    rewrite clean_clean, drop_cur_clean, drop_cur_app, drop_flat_name by auto.
    f_equal. symmetry. apply norm_drop.
  - rewrite !in_app_iff. intros [K|[K|K]]; revert K; [apply norm_no_root | apply drop_nonroot | cbn; intuition discriminate].
  - rewrite !in_app_iff. intros [K|[K|K]]; revert K; [apply norm_no_cur | apply in_drop_cur | cbn; intuition discriminate].
Qed.

Lemma proper_cons s l : proper_names (s :: l) =
  if negb (str_eqb s [] || str_eqb s (bs ".")) then s :: proper_names l else proper_names l.
Proof. reflexivity. Qed.

Lemma proper_comps l wp : Forall (fun s => ~ In x2f s) l ->
  prefix_of (map CNorm wp) (drop_cur (flat_map seg_comps l)) -> prefix_of wp (proper_names l).
Proof.
  intros Hl. revert wp. induction Hl as [|s l Hs Hl IH]; intros wp [r E].
  - cbn in E. symmetry in E. apply app_eq_nil in E as [E _]. destruct wp; [now exists []|discriminate].
  - cbn [flat_map] in E. rewrite drop_cur_app in E. rewrite proper_cons.
    destruct s as [|b s]; [apply IH; now exists r|]. change (str_eqb (b :: s) []) with false. rewrite orb_false_l.
    cbn [seg_comps] in E. rewrite classify_eq in E.
    destruct (str_eqb (b :: s) (bs ".")) eqn:E1; [apply IH; now exists r|]. cbn [negb].
    destruct wp as [|a wp]; [eexists; reflexivity|].
    destruct (str_eqb (b :: s) (bs "..")) eqn:E2; cbn [drop_cur filter is_cur negb app map] in E; [discriminate|].
    injection E as <- E. destruct (IH wp) as [r' ->]; [now exists r|]. now exists r'.
Qed.

(** An absolute path given to [make_output_path]. *)
Lemma output_absolute w wp hp segs n :
  w_path w = at_root wp -> w_html w = at_root hp -> name_ok n -> no_dot n ->
  Forall (fun s => ~ In x2f s) segs -> ~ prefix_of wp (proper_names (segs ++ [n])) ->
  make_output_path w (CRoot :: drop_cur (flat_map seg_comps (segs ++ [n]))) (bs "html") =
  Some (target_comps hp [] segs (dotted n (bs "html"))).
Proof.
  intros Hp Hh Hn Hd Hs Hpre.
  rewrite (make_output_rel w wp hp _ (drop_cur (flat_map seg_comps segs) ++ [CNorm n])); auto.
  - f_equal. apply (with_ext_target hp [] segs n); auto. apply Hn.
  - right. left. split.
    + rewrite Hp. intros [r E]. apply Hpre, proper_comps.
      * apply Forall_app. split; auto. constructor; auto. apply Hn.
      * unfold at_root in E. cbn [app] in E. injection E as E. now exists r.
    + unfold make_path_relative. cbn [filter is_root negb]. rewrite forallb_filter_id.
      * rewrite drop_cur_clean, drop_cur_idem. symmetry. now apply drop_flat_name.
      * apply forallb_forall. intros x Hx. destruct x; auto. now apply drop_nonroot in Hx.
  - rewrite !in_app_iff. intros [K|K]; revert K; [apply drop_nonroot | cbn; intuition discriminate].
  - rewrite !in_app_iff. intros [K|K]; revert K; [apply in_drop_cur | cbn; intuition discriminate].
Qed.

Lemma index_join d : Forall (fun s => ~ In x2f s) (u_segs (ld_uri d)) ->
  (if is_path_dir d then path_join (data_path d) [CNorm (bs "index")] else data_path d) =
  if u_abs (ld_uri d) then CRoot :: drop_cur (flat_map seg_comps (link_page d))
  else clean (flat_map seg_comps (link_page d)).
Proof.
  intro H. rewrite data_path_spec by auto. unfold is_path_dir, link_page.
  destruct (rev (u_segs (ld_uri d))) as [|[|b s] l]; auto.
  rewrite flat_map_app. change (flat_map seg_comps [bs "index"]) with [CNorm (bs "index")].
  unfold path_join. cbn [has_root]. destruct (u_abs (ld_uri d)).
  - cbn [app clean]. rewrite !drop_cur_app, drop_cur_idem. reflexivity.
  - apply clean_clean_app.
Qed.

Lemma dir_of_below sd sn : dir_of (below (sd ++ [sn])) = below sd.
Proof. unfold dir_of, below. rewrite map_app. cbn [map]. now rewrite path_parent_snoc. Qed.

Lemma link_target w wp hp sd sn d segs n :
  w_path w = at_root wp -> w_html w = at_root hp ->
  Forall (fun s => ~ In x2f s) (u_segs (ld_uri d)) -> link_page d = segs ++ [n] -> name_ok n -> no_dot n ->
  (u_abs (ld_uri d) = true -> ~ prefix_of wp (proper_names (segs ++ [n]))) ->
  target_output w (below (sd ++ [sn]))
    (if is_path_dir d then path_join (data_path d) [CNorm (bs "index")] else data_path d)
    (u_abs (ld_uri d)) (bs "html") =
  Some (target_comps hp (if u_abs (ld_uri d) then [] else sd) segs (dotted n (bs "html"))).
Proof.
  intros Hp Hh Hs E Hn Hd Ha. rewrite index_join, E by auto. unfold target_output.
  assert (Hs' : Forall (fun s => ~ In x2f s) segs).
  { unfold link_page in E. destruct (rev (u_segs (ld_uri d))) as [|[|b s] l].
    - rewrite E in Hs. apply Forall_app in Hs. tauto.
    - apply app_inj_tail in E as [<- _]. auto.
    - rewrite E in Hs. apply Forall_app in Hs. tauto. }
  destruct (u_abs (ld_uri d)).
  - apply (output_absolute w wp); auto.
  - rewrite dir_of_below. rewrite <- (output_relative w wp hp sd segs n) by auto. f_equal.
    unfold path_join. rewrite nonroot_has by (apply clean_nonroot, segs_nonroot).
    destruct sd as [|x sd]; [apply clean_clean|]. apply clean_app_clean. discriminate.
Qed.

Lemma decode_nonempty n : n <> [] -> percent_decode n <> [].
Proof.
  destruct n as [|b n]; [congruence|]. intros _. cbn [percent_decode].
  destruct (beqb b x25); [|discriminate]. destruct n as [|h1 [|h2 n]]; try discriminate.
  destruct (hex_val h1); [destruct (hex_val h2)|]; discriminate.
Qed.

(** * Resolved links *)

Lemma link_to_linked rel_parse frag_parse s t a :
  linked rel_parse frag_parse (relative_link_text s t) a (link_to rel_parse frag_parse s (Some t) a).
Proof. unfold linked, link_to. destruct (rel_parse _); reflexivity. Qed.

Lemma page_names d segs n : link_page d = segs ++ [n] -> Forall (fun s => ~ In x2f s) (u_segs (ld_uri d)) ->
  Forall (fun s => ~ In x2f s) segs.
Proof.
  intros E Hs. unfold link_page in E. destruct (rev (u_segs (ld_uri d))) as [|[|b s] l].
  - rewrite E in Hs. apply Forall_app in Hs. tauto.
  - apply app_inj_tail in E as [<- _]. auto.
  - rewrite E in Hs. apply Forall_app in Hs. tauto.
Qed.

Lemma resolve_wiki rel_parse frag_parse c w wp hp sd sn d segs n base :
  w_path w = at_root wp -> w_html w = at_root hp ->
  Forall name_ok (hp ++ sd ++ [sn]) -> Forall unescaped (hp ++ sd ++ [sn]) ->
  is_local d = true -> is_local_anchor d = false ->
  Forall (fun s => ~ In x2f s) (u_segs (ld_uri d)) -> link_page d = segs ++ [n] -> name_ok n -> no_dot n ->
  base = (if u_abs (ld_uri d) then [] else sd) -> stays (length base) segs = true ->
  (u_abs (ld_uri d) = true -> ~ prefix_of wp (proper_names (segs ++ [n]))) ->
  no_page (hp ++ sd ++ segs) -> no_dot (w_ext w) ->
  exists src_out dirs text,
    make_output_path w (below (sd ++ [sn])) (bs "html") = Some (at_root src_out) /\
    dirs = follow_names percent_decode base segs /\
    make_output_path w (at_root (wp ++ dirs ++ [dotted (percent_decode n) (w_ext w)])) (bs "html") =
      Some (at_root (follow src_out text)) /\
    follow src_out text = hp ++ dirs ++ [dotted (percent_decode n) (bs "html")] /\
    linked rel_parse frag_parse text (to_anchor d)
      (resolve_link rel_parse frag_parse c w (below (sd ++ [sn])) (LWiki d)).
Proof.
  intros Hp Hh Hok Hun Hl Hla Hs E Hn Hd Hb Hst Ha Hnp Hx.
  pose proof (page_names d segs n E Hs) as Hs'.
  assert (Hsn : sn <> []).
  { rewrite app_assoc in Hok. apply Forall_app in Hok as [_ Hok]. apply Forall_inv in Hok. apply Hok. }
  pose proof (page_output w wp hp (below (sd ++ [sn])) sd sn (bs "html") Hp Hh (or_intror eq_refl) Hsn ltac:(discriminate)) as Ho.
  pose proof (link_target w wp hp sd sn d segs n Hp Hh Hs E Hn Hd Ha) as Ht.
  unfold resolve_link. rewrite Ho, Hl, Hla. cbn [andb negb]. rewrite Ht.
  assert (Hdn : percent_decode n <> []) by (apply decode_nonempty, Hn).
  eexists _, _, _. split; [reflexivity|]. split; [reflexivity|].
  pose proof Hok as Hok'. apply Forall_app in Hok' as [Hok1 Hok2]. apply Forall_app in Hok2 as [Hok2 _].
  pose proof Hun as Hun'. apply Forall_app in Hun' as [Hun1 Hun2]. apply Forall_app in Hun2 as [Hun2 _].
  unfold no_page in Hnp. pose proof Hnp as Hnp'. apply Forall_app in Hnp' as [Hnp1 Hnp2]. apply Forall_app in Hnp2 as [Hnp2 Hnp3].
  assert (L := link_leads hp sd sn hp base segs n). rewrite <- Hb.
  assert (L' : follow (hp ++ sd ++ [dotted (fst (rsplit_dot sn)) (bs "html")])
    (relative_link_text (at_root (hp ++ sd ++ [dotted (fst (rsplit_dot sn)) (bs "html")]))
       (target_comps hp base segs (dotted n (bs "html")))) =
  hp ++ follow_names percent_decode base segs ++ [dotted (percent_decode n) (bs "html")]).
  { apply L; auto using map_decode_unescaped.
    - subst base. destruct (u_abs (ld_uri d)); auto.
    - subst base. destruct (u_abs (ld_uri d)); auto using map_decode_unescaped.
    - apply Forall_app. auto.
    - apply Forall_app. split; auto. apply Forall_app. split; auto. subst base. destruct (u_abs (ld_uri d)); auto. }
  split; [|split; [exact L' | apply link_to_linked]].
  rewrite L'. rewrite (page_output w wp hp _ (follow_names percent_decode base segs) (dotted (percent_decode n) (w_ext w))); auto.
  - now rewrite rsplit_dotted.
  - intro K. apply app_eq_nil in K as [K _]. auto.
  - discriminate.
Qed.

(** ** Other wikis *)

Lemma other_target w' wp' hp' d segs n :
  w_path w' = at_root wp' -> w_html w' = at_root hp' ->
  Forall (fun s => ~ In x2f s) (u_segs (ld_uri d)) -> u_segs (ld_uri d) = segs ++ [n] -> name_ok n -> no_dot n ->
  (u_abs (ld_uri d) = true -> ~ prefix_of wp' (proper_names (segs ++ [n]))) ->
  make_output_path w' (data_path d) (bs "html") = Some (target_comps hp' [] segs (dotted n (bs "html"))).
Proof.
  intros Hp Hh Hs E Hn Hd Ha. rewrite data_path_spec, E by auto. rewrite E in Hs. apply Forall_app in Hs as [Hs _].
  destruct (u_abs (ld_uri d)); [apply (output_absolute w' wp'); auto|].
  apply (output_relative w' wp' hp' [] segs n); auto.
Qed.

Lemma resolve_other rel_parse frag_parse c w w' wp hp wp' hp' sd sn d segs n l :
  w_path w = at_root wp -> w_html w = at_root hp -> w_path w' = at_root wp' -> w_html w' = at_root hp' ->
  Forall name_ok (hp ++ sd ++ [sn] ++ hp') -> Forall unescaped (hp ++ sd ++ [sn] ++ hp') ->
  Forall (fun s => ~ In x2f s) (u_segs (ld_uri d)) -> u_segs (ld_uri d) = segs ++ [n] -> name_ok n -> no_dot n ->
  stays 0 segs = true ->
  (u_abs (ld_uri d) = true -> ~ prefix_of wp' (proper_names (segs ++ [n]))) ->
  no_page (hp ++ sd ++ hp' ++ segs) -> no_dot (w_ext w') ->
  (exists i, l = LIndexed i d /\ find_wiki_by_index c (N.to_nat i) = Some w') \/
  (exists m, l = LNamed m d /\ find_wiki_by_name c m = Some w') ->
  exists src_out dirs text,
    make_output_path w (below (sd ++ [sn])) (bs "html") = Some (at_root src_out) /\
    dirs = follow_names percent_decode [] segs /\
    make_output_path w' (at_root (wp' ++ dirs ++ [dotted (percent_decode n) (w_ext w')])) (bs "html") =
      Some (at_root (follow src_out text)) /\
    follow src_out text = hp' ++ dirs ++ [dotted (percent_decode n) (bs "html")] /\
    linked rel_parse frag_parse text (to_anchor d)
      (resolve_link rel_parse frag_parse c w (below (sd ++ [sn])) l).
Proof.
  intros Hp Hh Hp' Hh' Hok Hun Hs E Hn Hd Hst Ha Hnp Hx Hl.
  apply Forall_app in Hok as [Hok1 Hok]. apply Forall_app in Hok as [Hok2 Hok]. apply Forall_app in Hok as [Hok3 Hok4].
  pose proof Hun as Hun0. apply Forall_app in Hun as [Hun1 Hun]. apply Forall_app in Hun as [Hun2 Hun]. apply Forall_app in Hun as [Hun3 Hun4].
  unfold no_page in Hnp. apply Forall_app in Hnp as [Hnp1 Hnp]. apply Forall_app in Hnp as [Hnp2 Hnp3].
  assert (Hsn : sn <> []) by (apply Forall_inv in Hok3; apply Hok3).
  pose proof (page_output w wp hp (below (sd ++ [sn])) sd sn (bs "html") Hp Hh (or_intror eq_refl) Hsn ltac:(discriminate)) as Ho.
  pose proof (other_target w' wp' hp' d segs n Hp' Hh' Hs E Hn Hd Ha) as Ht.
  assert (Hdn : percent_decode n <> []) by (apply decode_nonempty, Hn).
  assert (L : follow (hp ++ sd ++ [dotted (fst (rsplit_dot sn)) (bs "html")])
    (relative_link_text (at_root (hp ++ sd ++ [dotted (fst (rsplit_dot sn)) (bs "html")]))
       (target_comps hp' [] segs (dotted n (bs "html")))) =
  hp' ++ follow_names percent_decode [] segs ++ [dotted (percent_decode n) (bs "html")]).
  { apply link_leads; auto using map_decode_unescaped.
    - rewrite E in Hs. apply Forall_app in Hs. tauto.
    - repeat (apply Forall_app; split); auto.
    - apply Forall_app. auto. }
  eexists _, _, _. split; [exact Ho|]. split; [reflexivity|]. split; [|split; [exact L|]].
  - rewrite L, (page_output w' wp' hp' _ (follow_names percent_decode [] segs) (dotted (percent_decode n) (w_ext w'))); auto.
    + now rewrite rsplit_dotted.
    + intro K. apply app_eq_nil in K as [K _]. auto.
    + discriminate.
  - unfold resolve_link. rewrite Ho. destruct Hl as [(i & -> & F)|(m & -> & F)]; rewrite F, Ht; apply link_to_linked.
Qed.

(** ** Diary pages *)

Lemma join_below_root names l : path_join (at_root names) (below l) = at_root (names ++ l).
Proof. rewrite root_join by apply norm_no_root. unfold below. rewrite norm_drop. now rewrite at_root_app. Qed.

Lemma resolve_diary rel_parse frag_parse c w wp hp dd sd sn dt d :
  w_path w = at_root wp -> w_html w = at_root hp -> w_diary w = below dd ->
  Forall name_ok (hp ++ dd ++ sd ++ [sn]) -> Forall unescaped (hp ++ dd ++ sd ++ [sn]) ->
  no_page (hp ++ dd ++ sd) -> no_dot (w_ext w) ->
  name_ok (date_display dt) -> no_dot (date_display dt) -> unescaped (date_display dt) ->
  exists src_out text,
    make_output_path w (below (sd ++ [sn])) (bs "html") = Some (at_root src_out) /\
    make_output_path w (at_root (wp ++ dd ++ [dotted (date_display dt) (w_ext w)])) (bs "html") =
      Some (at_root (follow src_out text)) /\
    follow src_out text = hp ++ dd ++ [dotted (date_display dt) (bs "html")] /\
    linked rel_parse frag_parse text (to_anchor d)
      (resolve_link rel_parse frag_parse c w (below (sd ++ [sn])) (LDiary dt d)).
Proof.
  intros Hp Hh Hdd Hok Hun Hnp Hx Hd1 Hd2 Hd3.
  apply Forall_app in Hok as [Hok1 Hok]. apply Forall_app in Hok as [Hok2 Hok]. apply Forall_app in Hok as [Hok3 Hok4].
  apply Forall_app in Hun as [Hun1 Hun]. apply Forall_app in Hun as [Hun2 Hun]. apply Forall_app in Hun as [Hun3 Hun4].
  unfold no_page in Hnp. apply Forall_app in Hnp as [Hnp1 Hnp]. apply Forall_app in Hnp as [Hnp2 Hnp3].
  assert (Hsn : sn <> []) by (apply Forall_inv in Hok4; apply Hok4).
  pose proof (page_output w wp hp (below (sd ++ [sn])) sd sn (bs "html") Hp Hh (or_intror eq_refl) Hsn ltac:(discriminate)) as Ho.
  assert (Ht : diary_output w dt (bs "html") = Some (at_root (hp ++ dd ++ [dotted (date_display dt) (bs "html")]))).
  { unfold diary_output. rewrite Hp, Hdd, join_below_root, seg_path by apply Hd1.
    assert (Es : seg_comps (date_display dt) = below [date_display dt]).
    { destruct Hd1 as (N1 & N2 & N3 & _). unfold seg_comps, below. destruct (date_display dt); [congruence|]. cbn [map].
      now rewrite classify_name. }
    rewrite Es, join_below_root, <- app_assoc.
    rewrite (page_output w wp hp _ dd (date_display dt) (bs "html")); auto; [|apply Hd1|discriminate].
    now rewrite rsplit_plain. }
  assert (L : follow (hp ++ sd ++ [dotted (fst (rsplit_dot sn)) (bs "html")])
    (relative_link_text (at_root (hp ++ sd ++ [dotted (fst (rsplit_dot sn)) (bs "html")]))
       (at_root (hp ++ dd ++ [dotted (date_display dt) (bs "html")]))) =
    hp ++ dd ++ [dotted (date_display dt) (bs "html")]).
  { apply relative_link_follow.
    - repeat (apply Forall_app; split); auto. constructor; auto. apply html_unescaped. now apply Forall_inv in Hun4.
    - repeat (apply Forall_app; split); auto. constructor; auto.
      intro K. unfold dotted in K. rewrite !in_app_iff in K. destruct K as [K|K]; [now apply Hd3|]. cbn in K. intuition discriminate.
    - repeat (apply Forall_app; split); auto. constructor; auto using dotted_html_ok.
    - rewrite !app_assoc. apply pages_incomparable; try (now eexists); apply Forall_app; auto. }
  eexists _, _. split; [exact Ho|]. split; [|split; [exact L|]].
  - rewrite L, (page_output w wp hp _ dd (dotted (date_display dt) (w_ext w))); auto.
    + rewrite rsplit_dotted; auto. apply Hd1.
    + intro K. apply app_eq_nil in K as [K _]. now apply Hd1 in K.
    + discriminate.
  - unfold resolve_link. rewrite Ho, Ht. apply link_to_linked.
Qed.

(** Dates are good names. *)
Definition date_byte (b : byte) : Prop := (48 <= byte_n b <= 57) \/ b = x2b \/ b = x2d.

Lemma date_name s : s <> [] -> Forall date_byte s -> name_ok s /\ no_dot s /\ unescaped s.
Proof.
  intros Hne H.
  assert (X : forall b, In b s -> date_byte b) by (now apply Forall_forall).
  assert (ND : no_dot s) by (intro K; destruct (X _ K) as [L|[L|L]]; try discriminate; cbv in L; lia).
  assert (NS : ~ In x2f s) by (intro K; destruct (X _ K) as [L|[L|L]]; try discriminate; cbv in L; lia).
  assert (NP : unescaped s) by (intro K; destruct (X _ K) as [L|[L|L]]; try discriminate; cbv in L; lia).
  repeat split; auto; intros ->; apply ND; cbn; auto.
Qed.

Lemma digit_date s : Forall (fun b => is_digit b = true) s -> Forall date_byte s.
Proof.
  apply Forall_impl. intros b H. left. unfold is_digit in H. apply andb_prop in H as [H1 H2].
  apply Nat.leb_le in H1, H2. lia.
Qed.

Lemma dec_date n : Forall date_byte (dec n).
Proof. apply digit_date, uint_str_digits. Qed.

Lemma pad_date w n : Forall date_byte (pad0 w (dec n)).
Proof.
  unfold pad0. apply Forall_app. split; [|apply dec_date].
  apply Forall_forall. intros b Hb. apply repeat_spec in Hb as ->. left. cbv. lia.
Qed.

Lemma date_display_bytes d : date_display d <> [] /\ Forall date_byte (date_display d).
Proof.
  unfold date_display. split.
  - intro K. apply app_eq_nil in K as [_ K]. discriminate.
  - assert (D : Forall date_byte (bs "-")) by (constructor; [right; right; reflexivity | constructor]).
    assert (P : Forall date_byte (bs "+")) by (constructor; [right; left; reflexivity | constructor]).
    assert (Y : Forall date_byte (if (d_year d <? 0)%Z then bs "-" ++ pad0 4 (dec (Z.to_N (- d_year d)))
                 else if (9999 <? d_year d)%Z then bs "+" ++ dec (Z.to_N (d_year d))
                 else pad0 4 (dec (Z.to_N (d_year d))))).
    { destruct (d_year d <? 0)%Z; [|destruct (9999 <? d_year d)%Z]; try apply pad_date; apply Forall_app;
        split; auto using pad_date, dec_date. }
    rewrite !Forall_app. auto using pad_date.
Qed.

Lemma date_display_name d : name_ok (date_display d) /\ no_dot (date_display d) /\ unescaped (date_display d).
Proof. destruct (date_display_bytes d). now apply date_name. Qed.

(** ** Transclusions *)

Lemma with_extension_same p n : p <> [] -> ~ In CCur (tl p) -> name_ok n ->
  (forall st, n <> dotted st []) ->
  with_extension (p ++ [CNorm n]) (match snd (rsplit_dot n) with Some e => e | None => [] end) = p ++ [CNorm n].
Proof.
  intros Hp Hc Hn Hdot. destruct Hn as (N1 & N2 & N3 & N4).
  destruct (rsplit_cases n N1) as [E|(st & e & En & Hst & He & E)].
  - rewrite E. cbn [snd]. unfold with_extension, file_stem, file_name. rewrite rev_app_distr. cbn [rev app option_map].
    rewrite removelast_last, E, app_nil_r. cbn [fst]. rewrite classify_name by auto. apply clean_app; auto.
    intros [K|[]]. discriminate.
  - rewrite E. cbn [snd]. rewrite with_extension_last; auto.
    + rewrite E. cbn [fst]. now rewrite En.
    + intros ->. now apply (Hdot st).
Qed.

Lemma resolve_transclusion rel_parse frag_parse c w wp hp sd sn d segs n base :
  w_path w = at_root wp -> w_html w = at_root hp ->
  Forall name_ok (hp ++ sd ++ [sn]) -> Forall unescaped (hp ++ sd ++ [sn]) ->
  is_local d = true ->
  Forall (fun s => ~ In x2f s) (u_segs (ld_uri d)) -> u_segs (ld_uri d) = segs ++ [n] -> name_ok n ->
  (forall st, n <> dotted st []) ->
  base = (if u_abs (ld_uri d) then [] else sd) -> stays (length base) segs = true ->
  (u_abs (ld_uri d) = true -> ~ prefix_of wp (proper_names (segs ++ [n]))) ->
  no_page (hp ++ sd ++ segs ++ [n]) -> follow_names (fun s => s) base (segs ++ [n]) <> sd ->
  exists src_out text,
    make_output_path w (below (sd ++ [sn])) (bs "html") = Some (at_root src_out) /\
    follow src_out text = hp ++ follow_names percent_decode base (segs ++ [n]) /\
    linked rel_parse frag_parse text None
      (resolve_link rel_parse frag_parse c w (below (sd ++ [sn])) (LTransclusion d)).
Proof.
  intros Hp Hh Hok Hun Hl Hs E Hn Hdot Hb Hst Ha Hnp Hnd.
  pose proof Hok as Hok'. apply Forall_app in Hok' as [Hok1 Hok2]. apply Forall_app in Hok2 as [Hok2 Hok3].
  pose proof Hun as Hun'. apply Forall_app in Hun' as [Hun1 Hun2]. apply Forall_app in Hun2 as [Hun2 Hun3].
  unfold no_page in Hnp. apply Forall_app in Hnp as [Hnp1 Hnp2]. apply Forall_app in Hnp2 as [Hnp2 Hnp3].
  assert (Hsn : sn <> []) by (apply Forall_inv in Hok3; apply Hok3).
  pose proof (page_output w wp hp (below (sd ++ [sn])) sd sn (bs "html") Hp Hh (or_intror eq_refl) Hsn ltac:(discriminate)) as Ho.
  pose proof Hs as Hs'. rewrite E in Hs'. apply Forall_app in Hs' as [Hs' _].
  set (ext := match snd (rsplit_dot n) with Some e => e | None => [] end).
  assert (WE : forall b, with_extension (at_root hp ++ below b ++ drop_cur (flat_map seg_comps segs) ++ [CNorm n]) ext =
                         target_comps hp b segs n).
  { intro b. unfold target_comps, ext. rewrite !app_assoc. apply with_extension_same; auto.
    - discriminate.
    - unfold at_root. cbn. rewrite !in_app_iff. intros [[K|K]|K]; revert K; try apply norm_no_cur. apply in_drop_cur. }
  assert (Hext : match extension (data_path d) with Some e => e | None => [] end = ext).
  { assert (F : file_name (data_path d) = Some n).
    { rewrite data_path_spec, E by auto. destruct (u_abs (ld_uri d)).
      - rewrite drop_flat_name by auto. unfold file_name. rewrite app_comm_cons, rev_app_distr. reflexivity.
      - rewrite flat_name by auto. unfold file_name. destruct (flat_map seg_comps segs) as [|x l]; [reflexivity|].
        cbn [app clean]. rewrite drop_cur_app. change (drop_cur [CNorm n]) with [CNorm n].
        rewrite app_comm_cons, rev_app_distr. reflexivity. }
    unfold extension, ext. now rewrite F. }
  assert (Ht : target_output w (below (sd ++ [sn])) (data_path d) (u_abs (ld_uri d)) ext = Some (target_comps hp base segs n)).
  { unfold target_output. rewrite data_path_spec, E by auto. subst base. destruct (u_abs (ld_uri d)).
    - rewrite (make_output_rel w wp hp _ (drop_cur (flat_map seg_comps segs) ++ [CNorm n])); auto.
      + f_equal. apply (WE []).
      + right. left. split.
        * rewrite Hp. intros [r Er]. apply (Ha eq_refl), proper_comps.
          -- apply Forall_app. split; auto. constructor; auto. apply Hn.
          -- unfold at_root in Er. cbn [app] in Er. injection Er as Er. now exists r.
        * unfold make_path_relative. cbn [filter is_root negb]. rewrite forallb_filter_id.
          -- rewrite drop_cur_clean, drop_cur_idem. symmetry. now apply drop_flat_name.
          -- apply forallb_forall. intros x Hx. destruct x; auto. now apply drop_nonroot in Hx.
      + rewrite !in_app_iff. intros [K|K]; revert K; [apply drop_nonroot | cbn; intuition discriminate].
      + rewrite !in_app_iff. intros [K|K]; revert K; [apply in_drop_cur | cbn; intuition discriminate].
    - rewrite dir_of_below.
      assert (Ej : path_join (below sd) (clean (flat_map seg_comps (segs ++ [n]))) =
                   clean (below sd ++ flat_map seg_comps (segs ++ [n]))).
      { unfold path_join. rewrite nonroot_has by (apply clean_nonroot, segs_nonroot).
        destruct sd as [|x sd']; [apply clean_clean|]. apply clean_app_clean. discriminate. }
      rewrite Ej.
      assert (R : ~ In CRoot (below sd ++ flat_map seg_comps (segs ++ [n]))).
      { rewrite in_app_iff. intros [K|K]; revert K; [apply norm_no_root | apply segs_nonroot]. }
      rewrite (make_output_rel w wp hp _ (below sd ++ drop_cur (flat_map seg_comps segs) ++ [CNorm n])); auto.
      + now rewrite WE.
      + right. right. split; [apply nonroot_has, clean_nonroot, R|].
        rewrite make_path_relative_below by (now apply clean_nonroot).
        rewrite clean_clean, drop_cur_clean, drop_cur_app, drop_flat_name by auto.
        f_equal. symmetry. apply norm_drop.
      + rewrite !in_app_iff. intros [K|[K|K]]; revert K; [apply norm_no_root | apply drop_nonroot | cbn; intuition discriminate].
      + rewrite !in_app_iff. intros [K|[K|K]]; revert K; [apply norm_no_cur | apply in_drop_cur | cbn; intuition discriminate]. }
  eexists _, _. split; [exact Ho|]. split.
  2:{ unfold resolve_link. rewrite Ho, Hl, Hext. cbv zeta. rewrite Ht. apply link_to_linked. }
  assert (Hun' : Forall unescaped (hp ++ sd ++ [dotted (fst (rsplit_dot sn)) (bs "html")])).
  { repeat (apply Forall_app; split); auto. constructor; auto. apply html_unescaped. now apply Forall_inv in Hun3. }
  rewrite !follow_app, !follow_name in * by auto.
  set (b := hp ++ follow_names (fun s => s) base segs ++ [n]).
  assert (NP : Forall (fun s => ~ page_name s) b).
  { unfold b. apply Forall_app in Hnp3 as [Hnp3 Hnp4]. repeat (apply Forall_app; split); auto.
    apply names_follow; [subst base; destruct (u_abs (ld_uri d)); auto|].
    eapply Forall_impl; [|exact Hnp3]. auto. }
  rewrite (rel_text_follow _ _ (hp ++ sd ++ [dotted (fst (rsplit_dot sn)) (bs "html")]) b).
  - unfold b. rewrite !map_app, (map_decode_unescaped hp) by auto. cbn [map]. rewrite <- follow_map.
    f_equal. f_equal. f_equal. subst base. destruct (u_abs (ld_uri d)); auto. now rewrite map_decode_unescaped.
  - rewrite root_relative. apply traversal_below.
  - now apply target_traversal.
  - exact Hun'.
  - unfold b. repeat (apply Forall_app; split); auto.
    apply names_follow; [subst base; destruct (u_abs (ld_uri d)); auto|].
    eapply Forall_impl; [|exact Hs']. apply seg_name.
  - intros [[[r K] _]|[_ K]].
    + (* the page is not a directory of the target *)
      rewrite K in NP. apply Forall_app in NP as [NP _]. apply Forall_app in NP as [_ NP].
      apply Forall_app in NP as [_ NP]. apply Forall_inv in NP. apply NP. now eexists.
    + (* the target is not the directory of the page *)
      rewrite (app_assoc hp sd), removelast_last in K. unfold b in K. apply app_inv_head in K. now apply Hnd.
Qed.

(** * The path to the root *)

Lemma root_text_follow c w wp dirs n i x :
  pc_index c = Some i -> find_wiki_by_index c i = Some w -> w_path w = at_root wp ->
  pc_page c = at_root (wp ++ dirs ++ [n]) -> name_ok x ->
  forall n', follow (dirs ++ [n']) (root_text c ++ x) = [percent_decode x].
Proof.
  intros Hi Hw Hp Hpg Hx n'. unfold root_text, page_to_root, find_active_wiki. rewrite Hi, Hw, Hpg.
  rewrite (path_to_root_spec w wp) by auto. unfold path_to_uri_string.
  assert (R : has_root (repeat CParent (length dirs)) = false) by (destruct dirs; reflexivity).
  cbv zeta. rewrite R, comp_str_parents.
  assert (E : (match join (bs "/") (repeat (bs "..") (length dirs)) with [] => [] | s => s ++ bs "/" end) ++ x =
              join (bs "/") (repeat (bs "..") (length dirs) ++ [x])).
  { destruct dirs as [|d dirs]; [reflexivity|]. cbn [length].
    assert (G : forall k, join (bs "/") (repeat (bs "..") (S k) ++ [x]) = (join (bs "/") (repeat (bs "..") (S k)) ++ bs "/") ++ x).
    { induction k as [|k IH]; [reflexivity|].
      change (repeat (bs "..") (S (S k))) with (bs ".." :: repeat (bs "..") (S k)).
      cbn [app]. change (join (bs "/") (bs ".." :: repeat (bs "..") (S k) ++ [x])) with (bs ".." ++ bs "/" ++ join (bs "/") (repeat (bs "..") (S k) ++ [x])).
      rewrite IH. reflexivity. }
    rewrite G. f_equal. pose proof (join_nonempty (repeat (bs "..") (S (length dirs))) (bs "..") (or_introl eq_refl) ltac:(discriminate)) as J.
    destruct (join _ _); [congruence | reflexivity]. }
  cbn [app]. match goal with |- follow _ ?t = _ => change t with
    ((match join (bs "/") (repeat (bs "..") (length dirs)) with [] => [] | s => s ++ bs "/" end) ++ x) end.
  rewrite E. unfold follow.
  destruct (join (bs "/") (repeat (bs "..") (length dirs) ++ [x])) as [|h t] eqn:Ej.
  - exfalso. revert Ej. apply (join_nonempty _ x); [apply in_app_iff; right; now left | apply Hx].
  - rewrite <- Ej, (split_on_join x2f).
    + rewrite removelast_last, follow_app. rewrite (follow_up _ _ [] dirs) by auto. now apply (follow_name _ []).
    + intro K. apply app_eq_nil in K as [_ K]. discriminate.
    + apply Forall_app. split; [|constructor; auto; apply Hx].
      apply Forall_forall. intros z Hz. apply repeat_spec in Hz as ->. cbn. intuition discriminate.
Qed.

Lemma rsplit_renamed e n : n <> [] -> renamed e n (dotted (fst (rsplit_dot n)) e).
Proof.
  intro H. destruct (rsplit_cases n H) as [E|(st & e' & -> & Hst & He & E)].
  - rewrite E. cbn [fst].
    destruct (in_dec byte_eq_dec x2e n) as [Hin|Hno]; [|now apply rn_plain].
    (* the last dot is the first character *)
    assert (Hsp : exists a b, n = a ++ [x2e] ++ b /\ no_dot b).
    { clear H E. induction n as [|b n IH]; [destruct Hin|].
      destruct (in_dec byte_eq_dec x2e n) as [Hn|Hn].
      - destruct (IH Hn) as (a & c & -> & Hc). now exists (b :: a), c.
      - destruct Hin as [->|Hin]; [|now exfalso]. now exists [], n. }
    destruct Hsp as (a & b & -> & Hb). destruct a as [|x a].
    + now apply (rn_hidden e b).
    + pose proof (rsplit_dotted (x :: a) b ltac:(discriminate) Hb) as R. unfold dotted in R.
      change (bs ".") with [x2e] in R. rewrite R in E. discriminate.
  - rewrite E. cbn [fst]. now apply rn_dotted.
Qed.
