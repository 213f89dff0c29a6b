(** Objects of JavaScript used for a table. *)
From Verif Require Import Base ModelSpan ModelAst ModelTable ModelWasm SpecWasm ProofBase ProofTable.
From Coq Require Import Lia.

Lemma take_cell_iff p h : (exists r, take_cell p h = Some r) <-> alive h p.
Proof.
  unfold take_cell, alive. destruct (find (fun x => fst x =? p) h) as [[q c]|] eqn:F.
  - apply find_some in F as [I E]. cbn in E. apply Nat.eqb_eq in E. subst. split; eauto.
  - split; [intros (r & E); discriminate|]. intros (c & I). pose proof (find_none _ _ F _ I) as E. cbn in E. now rewrite Nat.eqb_refl in E.
Qed.
Lemma take_cell_after p h c h' : take_cell p h = Some (c, h') -> In (p, c) h /\
  forall q d, In (q, d) h' <-> In (q, d) h /\ q <> p.
Proof.
  unfold take_cell. destruct (find (fun x => fst x =? p) h) as [[q d]|] eqn:F; [|discriminate].
  apply find_some in F as [I E]. cbn in E. apply Nat.eqb_eq in E. subst. intro H. injection H as <- <-. split; [exact I|].
  intros q e. rewrite filter_In, negb_true_iff, Nat.eqb_neq. reflexivity.
Qed.
Definition row_objects (row : list (option nat)) : list nat := flat_map (fun x => match x with Some p => [p] | None => [] end) row.

(** What taking the objects [ps] from [h] to [h'] leaves. *)
Definition left_over (ps : list nat) (h h' : heap) : Prop := forall q d, In (q, d) h' <-> In (q, d) h /\ ~ In q ps.
Lemma take_row_after row : forall h cs h', take_row row h = Some (cs, h') ->
  left_over (row_objects row) h h' /\
  Forall2 (fun x y => match x, y with Some p, Some c => In (p, c) h | None, None => True | _, _ => False end) row cs.
Proof.
  induction row as [|[p|] row IH]; intros h cs h' H; cbn [take_row] in H.
  - injection H as <- <-. split; [intros q d; cbn; tauto|constructor].
  - destruct (take_cell p h) as [[c h1]|] eqn:T; [|discriminate]. destruct (take_row row h1) as [[cs1 h2]|] eqn:T2; [|discriminate].
    injection H as <- <-. apply take_cell_after in T as [I A]. apply IH in T2 as [B F]. split.
    + intros q d. specialize (A q d). specialize (B q d). cbn [row_objects flat_map app In]. fold (row_objects row). rewrite B, A.
      split; [intros [[X Y] Z]; split; [exact X|intros [E|E]; [now apply Y|now apply Z]]|].
      intros [X Y]. repeat split; [exact X|intro E; apply Y; now left|intro E; apply Y; now right].
    + constructor; [exact I|]. clear - F A. induction F as [|x y l l' E F IHF]; constructor; [|exact IHF].
      destruct x as [x|], y as [y|]; auto. now apply A in E.
  - destruct (take_row row h) as [[cs1 h2]|] eqn:T2; [|discriminate]. injection H as <- <-. apply IH in T2 as [B F].
    split; [exact B|]. constructor; auto.
Qed.
Lemma take_row_iff row : forall h, (exists r, take_row row h = Some r) <-> NoDup (row_objects row) /\ Forall (alive h) (row_objects row).
Proof.
  induction row as [|[p|] row IH]; intro h; cbn [take_row row_objects flat_map app].
  - split; [intros _; split; constructor|eauto].
  - fold (row_objects row). destruct (take_cell p h) as [[c h1]|] eqn:T.
    + assert (L : alive h p) by (apply take_cell_iff; eauto). apply take_cell_after in T as [_ A].
      assert (S1 : (exists r, option_map (fun r => (Some c :: fst r, snd r)) (take_row row h1) = Some r) <-> exists r, take_row row h1 = Some r).
      { destruct (take_row row h1); split; intros (r & E); try discriminate; cbn; eauto. }
      rewrite S1, IH, !Forall_forall. split.
      * intros [N F]. assert (NI : ~ In p (row_objects row)) by (intro I; destruct (F p I) as (d & J); apply A in J as [_ J]; now apply J).
        split; [now constructor|]. intros q [<-|I]; [exact L|]. destruct (F q I) as (d & J). apply A in J as [J _]. now exists d.
      * intros [N F]. inversion N; subst. split; [assumption|]. intros q I. destruct (F q (or_intror I)) as (d & J). exists d. apply A. split; [exact J|congruence].
    + split; [intros (r & E); discriminate|]. intros [_ F]. inversion F as [|? ? L _]; subst. apply take_cell_iff in L as (r & E). congruence.
  - fold (row_objects row). rewrite <- IH. destruct (take_row row h); split; intros (r & E); try discriminate; cbn; eauto.
Qed.
Definition row_of (r : option (list (option nat))) : list nat := match r with Some row => row_objects row | None => [] end.
Lemma objects_cons r rows : objects (r :: rows) = row_of r ++ objects rows.
Proof. reflexivity. Qed.
Lemma nodup_app {A} (a b : list A) : NoDup (a ++ b) <-> NoDup a /\ NoDup b /\ forall x, In x a -> ~ In x b.
Proof.
  induction a as [|x a IH]; cbn [app].
  - split; [intro H; repeat split; [constructor|exact H|intros x []]|tauto].
  - rewrite !NoDup_cons_iff, IH, in_app_iff. split.
    + intros (N & A1 & A2 & A3). repeat split; try tauto. intros y [<-|I]; [tauto|auto].
    + intros ((N & A1) & A2 & A3). repeat split; auto.
      * intros [I|I]; [auto|]. exact (A3 x (or_introl eq_refl) I).
      * intros y I. apply A3. now right.
Qed.
Lemma take_rows_after rows : forall h cs h', take_rows rows h = Some (cs, h') -> left_over (objects rows) h h' /\
  Forall2 (fun r s => match r, s with
     | Some row, Some cells => Forall2 (fun x y => match x, y with Some p, Some c => In (p, c) h | None, None => True | _, _ => False end) row cells
     | None, None => True | _, _ => False end) rows cs.
Proof.
  induction rows as [|[row|] rows IH]; intros h cs h' H; cbn [take_rows] in H.
  - injection H as <- <-. split; [intros q d; cbn; tauto|constructor].
  - destruct (take_row row h) as [[c h1]|] eqn:T; [|discriminate]. destruct (take_rows rows h1) as [[cs1 h2]|] eqn:T2; [|discriminate].
    injection H as <- <-. apply take_row_after in T as [A F1]. apply IH in T2 as [B F2]. split.
    + intros q d. rewrite objects_cons, in_app_iff. cbn [row_of snd]. specialize (A q d). specialize (B q d). rewrite B, A. tauto.
    + constructor; [exact F1|]. clear - F2 A. induction F2 as [|x y l l' E F IHF]; constructor; [|exact IHF].
      destruct x as [x|], y as [y|]; auto. clear - E A. induction E as [|u v l l' E F IHF]; constructor; [|exact IHF].
      destruct u as [u|], v as [v|]; auto. now apply A in E.
  - destruct (take_rows rows h) as [[cs1 h2]|] eqn:T2; [|discriminate]. injection H as <- <-. apply IH in T2 as [B F].
    split; [exact B|]. constructor; auto.
Qed.
Lemma take_rows_iff rows : forall h, (exists r, take_rows rows h = Some r) <-> NoDup (objects rows) /\ Forall (alive h) (objects rows).
Proof.
  induction rows as [|[row|] rows IH]; intro h; cbn [take_rows]; rewrite ?objects_cons; cbn [row_of app].
  - split; [intros _; split; constructor|eauto].
  - rewrite nodup_app, Forall_app. pose proof (take_row_iff row h) as W. destruct (take_row row h) as [[c h1]|] eqn:T.
    + apply proj1 in W. destruct (W (ex_intro _ _ eq_refl)) as [W1 W2]. apply take_row_after in T as [A _].
      assert (S1 : (exists r, option_map (fun r => (Some c :: fst r, snd r)) (take_rows rows h1) = Some r) <-> exists r, take_rows rows h1 = Some r).
      { destruct (take_rows rows h1); split; intros (r & E); try discriminate; cbn; eauto. }
      rewrite S1, IH, !Forall_forall. split.
      * intros [N F]. repeat split; auto; [|now apply Forall_forall|].
        -- intros x I J. destruct (F x J) as (d & K). apply A in K as [_ K]. auto.
        -- intros x J. destruct (F x J) as (d & K). apply A in K as [K _]. now exists d.
      * intros ((N1 & N2 & N3) & F1 & F2). split; [exact N2|]. intros x J. destruct (F2 x J) as (d & K). exists d. apply A. split; [exact K|].
        intro I. exact (N3 x I J).
    + split; [intros (r & E); discriminate|]. intros ((N1 & _) & F1 & _). destruct (proj2 W (conj N1 F1)) as (r & E). discriminate.
  - rewrite <- IH. destruct (take_rows rows h); split; intros (r & E); try discriminate; cbn; eauto.
Qed.
