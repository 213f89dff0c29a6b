(** Handing out ids. *)
From Coq Require Import DecimalN NArith Nnat.
From Verif Require Import Base ModelSpan ModelAst ModelTable ModelLink ModelElem ModelPath ModelHtml SpecHtml
  ProofElem2.

(** * Numbers after a dash *)

Lemma uint_str_inj a : forall b, uint_str a = uint_str b -> a = b.
Proof.
  induction a as [|a IH|a IH|a IH|a IH|a IH|a IH|a IH|a IH|a IH|a IH]; intros [|b|b|b|b|b|b|b|b|b|b] E;
    cbn [uint_str] in E; try discriminate; auto; injection E as E; f_equal; auto.
Qed.
Lemma dec_inj n m : dec n = dec m -> n = m.
Proof.
  unfold dec. intro E. apply uint_str_inj in E.
  rewrite <- (Unsigned.of_to n), <- (Unsigned.of_to m). now rewrite E.
Qed.
Lemma dec_no_dash n : ~ In x2d (dec n).
Proof.
  intro H. assert (D := uint_str_digits (N.to_uint n)). rewrite Forall_forall in D.
  specialize (D _ H). discriminate.
Qed.

Lemma last_dash a b : ~ In x2d b -> forall a' b', ~ In x2d b' ->
  a ++ x2d :: b = a' ++ x2d :: b' -> a = a' /\ b = b'.
Proof.
  intros B. induction a as [|x a IH]; intros [|y a'] b' B' E; cbn [app] in E.
  - injection E as ->. auto.
  - injection E as _ E. exfalso. apply B. rewrite E. apply in_or_app. right. now left.
  - injection E as _ E. exfalso. apply B'. rewrite <- E. apply in_or_app. right. now left.
  - injection E as -> E. destruct (IH a' b' B' E) as [-> ->]. auto.
Qed.
Lemma dashed_eq id n : dashed id n = id ++ x2d :: dec (N.of_nat n).
Proof. reflexivity. Qed.
Lemma dashed_inj a n b m : dashed a n = dashed b m -> a = b /\ n = m.
Proof.
  rewrite !dashed_eq. intro E. apply last_dash in E; auto using dec_no_dash.
  destruct E as [-> E]. apply dec_inj in E. split; [reflexivity|]. lia.
Qed.
Lemma dashed_longer id n : length id < length (dashed id n).
Proof. rewrite dashed_eq, app_length. cbn [length]. lia. Qed.

(** * The cache *)

Lemma id_get_none k m : id_get k m = None <-> ~ In k (map fst m).
Proof.
  induction m as [|[k' v] m IH]; cbn [id_get map fst In]; [split; auto|].
  destruct (str_eqb k k') eqn:E.
  - apply str_eqb_eq in E. subst. split; [discriminate | intro H; exfalso; auto].
  - apply str_eqb_neq in E. rewrite IH. split; intros H; [intros [K|K]; [congruence | auto] | auto].
Qed.
Lemma id_get_some k m : (exists v, id_get k m = Some v) <-> In k (map fst m).
Proof.
  destruct (id_get k m) eqn:E.
  - split; [|eauto]. intros _. destruct (in_dec (list_eq_dec byte_eq_dec) k (map fst m)) as [|N]; auto.
    apply id_get_none in N. congruence.
  - apply id_get_none in E. split; [intros [v K]; discriminate | contradiction].
Qed.
Lemma id_get_set k v m x : id_get x (id_set k v m) = if str_eqb x k then Some v else id_get x m.
Proof.
  induction m as [|[k' v'] m IH]; cbn [id_set id_get]; [reflexivity|].
  destruct (str_eqb k k') eqn:E.
  - apply str_eqb_eq in E. subst. cbn [id_get]. destruct (str_eqb x k'); reflexivity.
  - cbn [id_get]. rewrite IH. destruct (str_eqb x k') eqn:F; [|reflexivity].
    apply str_eqb_eq in F. subst. destruct (str_eqb k' k) eqn:G; [|reflexivity].
    apply str_eqb_eq in G. subst. now rewrite str_eqb_refl in E.
Qed.
Lemma id_set_keys k v m x : In x (map fst (id_set k v m)) <-> x = k \/ In x (map fst m).
Proof.
  rewrite <- !id_get_some. setoid_rewrite id_get_set. destruct (str_eqb x k) eqn:E.
  - apply str_eqb_eq in E. split; eauto.
  - apply str_eqb_neq in E. split; [auto | intros [?|?]; [contradiction | auto]].
Qed.
Lemma id_set_new k v m : ~ In k (map fst m) -> id_set k v m = m ++ [(k, v)].
Proof.
  induction m as [|[k' v'] m IH]; intro N; [reflexivity|]. cbn [id_set map fst In] in *.
  destruct (str_eqb k k') eqn:E; [apply str_eqb_eq in E; subst; exfalso; auto|].
  cbn [app]. rewrite IH; auto.
Qed.
Lemma id_set_old k v m : In k (map fst m) -> map fst (id_set k v m) = map fst m.
Proof.
  induction m as [|[k' v'] m IH]; intro H; [contradiction|]. cbn [id_set map fst] in *.
  destruct (str_eqb k k') eqn:E; [apply str_eqb_eq in E; subst; reflexivity|].
  apply str_eqb_neq in E. destruct H; [congruence|]. cbn [map fst]. now rewrite IH.
Qed.
Definition total (m : list (str * nat)) : nat := list_sum (map snd m).
Lemma total_set_old k v c m : NoDup (map fst m) -> id_get k m = Some c ->
  total (id_set k v m) + c = total m + v.
Proof.
  unfold total. induction m as [|[k' v'] m IH]; intros D G; [discriminate|].
  cbn [id_get id_set map fst] in *. inversion D as [|? ? Ni D']; subst.
  destruct (str_eqb k k') eqn:E.
  - injection G as ->. cbn [map snd list_sum fold_right]. unfold list_sum. cbn [fold_right]. lia.
  - unfold list_sum in *. cbn [map snd fold_right]. specialize (IH D' G). lia.
Qed.
Lemma total_get k c m : id_get k m = Some c -> c <= total m.
Proof.
  unfold total. induction m as [|[k' v'] m IH]; intro G; [discriminate|].
  cbn [id_get map snd] in *. unfold list_sum in *. cbn [fold_right].
  destruct (str_eqb k k'); [injection G as ->; lia|]. specialize (IH G). lia.
Qed.

(** * The loop ends *)

Definition klen (kv : str * nat) : nat := length (fst kv).
Definition longer (n : nat) (m : list (str * nat)) : nat :=
  length (filter (fun kv => n <=? klen kv) m).
Lemma longer_le n m : longer n m <= length m.
Proof.
  unfold longer. induction m as [|x m IH]; cbn [filter]; [apply le_n|].
  destruct (n <=? klen x); cbn [length]; lia.
Qed.
Lemma longer_mono n n' m : n <= n' -> longer n' m <= longer n m.
Proof.
  unfold longer. intro L. induction m as [|x m IH]; cbn [filter]; [apply le_n|].
  destruct (n <=? klen x) eqn:A; destruct (n' <=? klen x) eqn:B; cbn [length];
    try apply Nat.leb_le in A; try apply Nat.leb_gt in A;
    try apply Nat.leb_le in B; try apply Nat.leb_gt in B; lia.
Qed.
Lemma longer_step k n m : In k (map fst m) -> length k < n -> longer n m < longer (length k) m.
Proof.
  unfold longer. induction m as [|[kx vx] m IH]; intros H L; [contradiction|]. cbn [filter map fst In] in *.
  assert (M := longer_mono (length k) n m ltac:(lia)). unfold longer in M.
  change (klen (kx, vx)) with (length kx).
  destruct (length k <=? length kx) eqn:A; destruct (n <=? length kx) eqn:B; cbn [length];
    try apply Nat.leb_le in A; try apply Nat.leb_gt in A;
    try apply Nat.leb_le in B; try apply Nat.leb_gt in B; try lia.
  - destruct H as [H|H]; [subst; lia|]. specialize (IH H L). lia.
  - destruct H as [H|H]; [subst; lia|]. specialize (IH H L). lia.
Qed.

(** What the loop returns extends the id by dashes and digits. *)
Definition suffix_ok (s : str) : Prop := Forall (fun b => b = x2d \/ is_digit b = true) s.
Lemma dashed_suffix id n : exists s, dashed id n = id ++ s /\ suffix_ok s.
Proof.
  rewrite dashed_eq. eexists. split; [reflexivity|]. constructor; [now left|].
  eapply Forall_impl; [|apply uint_str_digits]. intros b H. now right.
Qed.

Lemma unique_loop_total fuel : forall m id, longer (length id) m + 1 < fuel ->
  exists m' u s, unique_loop fuel m id = Some (m', u) /\ u = id ++ s /\ suffix_ok s.
Proof.
  induction fuel as [|f IH]; intros m id L; [lia|]. cbn [unique_loop].
  destruct (id_get id m) as [c|] eqn:G.
  2: { exists m, id, []. rewrite app_nil_r. repeat split; auto. constructor. }
  assert (H : In id (map fst m)) by (apply id_get_some; eauto).
  destruct (id_get (dashed id (c + 1)) m) eqn:T.
  - assert (Tl := longer_step id (length (id ++ bs "-1")) m H).
    rewrite app_length in Tl. change (length (bs "-1")) with 2 in Tl. specialize (Tl ltac:(lia)).
    destruct (IH m (id ++ bs "-1")) as (m' & u & s & E & -> & S1).
    { rewrite app_length. change (length (bs "-1")) with 2. lia. }
    exists m', ((id ++ bs "-1") ++ s), (bs "-1" ++ s). rewrite E. split; [reflexivity|].
    rewrite app_assoc. split; [reflexivity|]. apply Forall_app. split; [|exact S1].
    constructor; [now left|]. constructor; [now right | constructor].
  - destruct f as [|f]; [lia|]. cbn [unique_loop].
    rewrite id_get_set. destruct (str_eqb (dashed id (c + 1)) id) eqn:E.
    { apply str_eqb_eq in E. assert (K := dashed_longer id (c + 1)). rewrite E in K. lia. }
    rewrite T. destruct (dashed_suffix id (c + 1)) as (s & Es & Ss).
    exists (id_set id (c + 1) m), (dashed id (c + 1)), s. auto.
Qed.

Lemma ensure_unique_total m id :
  exists m' u s, ensure_unique m id = Some (m', u) /\ u = id ++ s /\ suffix_ok s.
Proof.
  unfold ensure_unique. destruct (id_get id m) eqn:G.
  - apply unique_loop_total. assert (K := longer_le (length id) m). lia.
  - exists (id_set id 0 m), id, []. rewrite app_nil_r. repeat split; auto. constructor.
Qed.

(** A new id is handed out as it is; a repeated one gets the next number
    provided that is not itself a request. *)
Lemma ensure_unique_new m id : id_get id m = None -> ensure_unique m id = Some (id_set id 0 m, id).
Proof. unfold ensure_unique. now intros ->. Qed.
Lemma ensure_unique_again m id c : id_get id m = Some c -> id_get (dashed id (c + 1)) m = None ->
  ensure_unique m id = Some (id_set id (c + 1) m, dashed id (c + 1)).
Proof.
  intros G T. unfold ensure_unique. rewrite G. rewrite Nat.add_comm. cbn [unique_loop Nat.add].
  rewrite G, T. rewrite id_get_set. destruct (str_eqb (dashed id (c + 1)) id) eqn:E.
  { apply str_eqb_eq in E. assert (K := dashed_longer id (c + 1)). rewrite E in K. lia. }
  now rewrite T.
Qed.

(** * Sequences of requests *)

Lemma issue_app m rs1 rs2 : issue m (rs1 ++ rs2) =
  match issue m rs1 with
  | Some (m1, us1) => match issue m1 rs2 with
                      | Some (m2, us2) => Some (m2, us1 ++ us2)
                      | None => None
                      end
  | None => None
  end.
Proof.
  revert m. induction rs1 as [|r rs1 IH]; intro m; cbn [app issue].
  - destruct (issue m rs2) as [[m2 us2]|]; reflexivity.
  - destruct (ensure_unique m r) as [[m1 u]|]; [|reflexivity]. rewrite IH.
    destruct (issue m1 rs1) as [[m2 us]|]; [|reflexivity].
    destruct (issue m2 rs2) as [[m3 us3]|]; reflexivity.
Qed.
Lemma issue_total rs : forall m, exists m' us, issue m rs = Some (m', us) /\ length us = length rs.
Proof.
  induction rs as [|r rs IH]; intro m; cbn [issue]; [eauto|].
  destruct (ensure_unique_total m r) as (m1 & u & s & -> & _ & _).
  destruct (IH m1) as (m2 & us & -> & L). exists m2, (u :: us). cbn [length]. auto.
Qed.

Lemma existsb_in x l : existsb (str_eqb x) l = true <-> In x l.
Proof.
  rewrite existsb_exists. split.
  - intros (y & I & E). apply str_eqb_eq in E. now subst.
  - intro I. exists x. split; [exact I | apply str_eqb_refl].
Qed.
Lemma repeats_snoc l r : repeats (l ++ [r]) = repeats l + (if existsb (str_eqb r) l then 1 else 0).
Proof.
  induction l as [|x l IH]; [reflexivity|]. cbn [app repeats existsb]. rewrite IH.
  rewrite existsb_app. cbn [existsb]. rewrite orb_false_r.
  destruct (str_eqb x r) eqn:E.
  - apply str_eqb_eq in E. subst. rewrite str_eqb_refl. cbn [orb]. rewrite orb_true_r.
    destruct (existsb (str_eqb r) l); lia.
  - rewrite orb_false_r. assert (F : str_eqb r x = false).
    { apply str_eqb_neq in E. apply str_eqb_neq. congruence. }
    rewrite F. cbn [orb]. lia.
Qed.
Lemma repeats_prefix l l' : repeats l <= repeats (l ++ l').
Proof.
  revert l. induction l' as [|x l' IH]; intro l; [rewrite app_nil_r; lia|].
  change (x :: l') with ([x] ++ l'). rewrite app_assoc. specialize (IH (l ++ [x])).
  rewrite repeats_snoc in IH. lia.
Qed.

(** State after the requests [rs] under [no_clash]. *)
Record ledger (rs : list str) (m : list (str * nat)) (us : list str) : Prop := {
  lg_keys : forall x, In x (map fst m) <-> In x rs;
  lg_nodup : NoDup (map fst m);
  lg_total : total m = repeats rs;
  lg_us : forall u, In u us -> In u rs \/ exists q c k, id_get q m = Some c /\ 1 <= k <= c /\ u = dashed q k;
  lg_distinct : NoDup us
}.

Lemma NoDup_snoc {A} (l : list A) x : NoDup l -> ~ In x l -> NoDup (l ++ [x]).
Proof.
  intros D N. induction D as [|y l Y D IH]; cbn [app]; [repeat constructor; auto|].
  constructor.
  - rewrite in_app_iff. cbn [In]. intros [H|[H|[]]]; [auto|]. subst. apply N. now left.
  - apply IH. intro H. apply N. now right.
Qed.

Lemma ledger_step all rs r m us : no_clash all -> (exists post, all = (rs ++ [r]) ++ post) ->
  ledger rs m us -> exists m' u, ensure_unique m r = Some (m', u) /\ ledger (rs ++ [r]) m' (us ++ [u]).
Proof.
  intros NC [post A] [K D T U N].
  assert (INall : forall x, In x (rs ++ [r]) -> In x all) by (intros x H; rewrite A; apply in_or_app; auto).
  assert (RP : repeats (rs ++ [r]) <= repeats all) by (rewrite A; apply repeats_prefix).
  rewrite repeats_snoc in RP.
  destruct (id_get r m) as [c|] eqn:G.
  - assert (Ir : In r rs) by (apply K, id_get_some; eauto).
    assert (Er : existsb (str_eqb r) rs = true) by now apply existsb_in.
    rewrite Er in RP.
    assert (Tn : id_get (dashed r (c + 1)) m = None).
    { apply id_get_none. rewrite K. intro H.
      apply (NC r (dashed r (c + 1)) (c + 1)); try reflexivity; try lia.
      - apply INall, in_or_app. auto.
      - apply INall, in_or_app. auto.
      - assert (Z := total_get _ _ _ G). lia. }
    exists (id_set r (c + 1) m), (dashed r (c + 1)). split; [now apply ensure_unique_again|].
    assert (Ik : In r (map fst m)) by (apply K; exact Ir).
    constructor.
    + intro x. rewrite id_set_keys, K, in_app_iff. cbn [In]. split; [intros [->|H]; auto|].
      intros [H|[H|[]]]; auto.
    + now rewrite id_set_old.
    + assert (Z := total_set_old r (c + 1) c m D G). rewrite repeats_snoc, Er. lia.
    + intros u. rewrite in_app_iff. cbn [In]. intros [H|[H|[]]].
      * destruct (U u H) as [V|(q & c' & k & G' & L & ->)]; [left; apply in_or_app; auto|].
        right. destruct (str_eqb q r) eqn:E.
        -- apply str_eqb_eq in E. subst q. rewrite G in G'. injection G' as <-.
           exists r, (c + 1), k. rewrite id_get_set, str_eqb_refl. repeat split; auto; lia.
        -- exists q, c', k. rewrite id_get_set, E. auto.
      * subst u. right. exists r, (c + 1), (c + 1). rewrite id_get_set, str_eqb_refl. repeat split; auto; lia.
    + apply NoDup_snoc; [exact N|]. intro H.
      destruct (U _ H) as [V|(q & c' & k & G' & L & E)].
      * apply id_get_none in Tn. apply Tn, K, V.
      * apply dashed_inj in E. destruct E as [<- <-]. rewrite G in G'. injection G' as <-. lia.
  - assert (Ir : ~ In r rs) by (rewrite <- K; now apply id_get_none).
    assert (Er : existsb (str_eqb r) rs = false).
    { destruct (existsb (str_eqb r) rs) eqn:E; auto. apply existsb_in in E. contradiction. }
    rewrite Er in RP.
    exists (id_set r 0 m), r. split; [now apply ensure_unique_new|].
    assert (Nk : ~ In r (map fst m)) by now apply id_get_none.
    constructor.
    + intro x. rewrite id_set_keys, K, in_app_iff. cbn [In]. split; [intros [->|H]; auto|].
      intros [H|[H|[]]]; auto.
    + rewrite id_set_new by exact Nk. rewrite map_app. now apply NoDup_snoc.
    + rewrite id_set_new by exact Nk. unfold total in *. rewrite map_app, list_sum_app, T, repeats_snoc, Er.
      reflexivity.
    + intros u. rewrite in_app_iff. cbn [In]. intros [H|[H|[]]].
      * destruct (U u H) as [V|(q & c' & k & G' & L & ->)]; [left; apply in_or_app; auto|].
        right. exists q, c', k. rewrite id_get_set. destruct (str_eqb q r) eqn:E; auto.
        apply str_eqb_eq in E. subst. congruence.
      * subst u. left. apply in_or_app. right. now left.
    + apply NoDup_snoc; [exact N|]. intro H.
      destruct (U _ H) as [V|(q & c' & k & G' & L & E)]; [contradiction|].
      assert (Iq : In q rs) by (apply K, id_get_some; eauto).
      apply (NC q r k); try lia.
      * apply INall, in_or_app. auto.
      * apply INall, in_or_app. right. now left.
      * assert (Z := total_get _ _ _ G'). lia.
      * exact E.
Qed.

Lemma issue_ledger all : no_clash all -> forall rs2 rs1 m us,
  all = rs1 ++ rs2 -> ledger rs1 m us ->
  exists m' us2, issue m rs2 = Some (m', us2) /\ ledger all m' (us ++ us2).
Proof.
  intro NC. induction rs2 as [|r rs2 IH]; intros rs1 m us A L.
  - rewrite app_nil_r in A. subst. exists m, []. rewrite app_nil_r. auto.
  - destruct (ledger_step all rs1 r m us NC) as (m1 & u & E & L1); auto.
    { exists rs2. rewrite <- app_assoc. exact A. }
    destruct (IH (rs1 ++ [r]) m1 (us ++ [u])) as (m2 & us2 & E2 & L2); auto.
    { rewrite <- app_assoc. exact A. }
    exists m2, (u :: us2). cbn [issue]. rewrite E, E2. split; [reflexivity|].
    now rewrite <- app_assoc in L2.
Qed.

Lemma ledger_nil : ledger [] [] [].
Proof. constructor; try constructor; try reflexivity; intros; contradiction. Qed.

Lemma issue_distinct rs m us : no_clash rs -> issue [] rs = Some (m, us) -> NoDup us.
Proof.
  intros NC E. destruct (issue_ledger rs NC rs [] [] [] eq_refl ledger_nil) as (m' & us' & E' & L).
  rewrite E in E'. injection E' as <- <-. exact (lg_distinct _ _ _ L).
Qed.

(** The first request for an id gets it unchanged. *)
Lemma issue_keys rs : forall m m' us, issue m rs = Some (m', us) ->
  forall x, In x (map fst m') <-> In x (map fst m) \/ In x rs.
Proof.
  assert (LK : forall fuel m id m' u, unique_loop fuel m id = Some (m', u) -> In id (map fst m) \/ True ->
               forall x, In x (map fst m') <-> In x (map fst m)).
  { induction fuel as [|f IH]; intros m id m' u E _ x; cbn [unique_loop] in E; [discriminate|].
    destruct (id_get id m) as [c|] eqn:G; [|now injection E as <- <-].
    destruct (id_get (dashed id (c + 1)) m) eqn:T.
    - eapply IH; eauto.
    - specialize (IH _ _ _ _ E (or_intror I) x). rewrite IH, id_set_keys.
      assert (K : In id (map fst m)) by (apply id_get_some; eauto).
      split; [intros [->|H]; auto | auto]. }
  induction rs as [|r rs IH]; intros m m' us E x; cbn [issue] in E.
  - injection E as <- <-. cbn [In]. tauto.
  - destruct (ensure_unique m r) as [[m1 u]|] eqn:E1; [|discriminate].
    destruct (issue m1 rs) as [[m2 us2]|] eqn:E2; [|discriminate]. injection E as <- <-.
    rewrite (IH _ _ _ E2 x). cbn [In].
    assert (H1 : In x (map fst m1) <-> In x (map fst m) \/ r = x).
    { unfold ensure_unique in E1. destruct (id_get r m) as [c|] eqn:G.
      - rewrite (LK _ _ _ _ _ E1 (or_intror I) x).
        assert (K : In r (map fst m)) by (apply id_get_some; eauto).
        split; [auto | intros [H|<-]; auto].
      - injection E1 as <- <-. rewrite id_set_keys. split; intros [H|H]; auto. }
    rewrite H1. tauto.
Qed.
Lemma issue_first rs m us r : issue [] rs = Some (m, us) -> ~ In r rs ->
  exists m', ensure_unique m r = Some (m', r).
Proof.
  intros E N. assert (K := issue_keys _ _ _ _ E r). cbn [map In] in K.
  eexists. apply ensure_unique_new, id_get_none. tauto.
Qed.
