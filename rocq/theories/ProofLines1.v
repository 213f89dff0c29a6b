(** The parsers do not tell a newline from a carriage return and a newline:
    two runs side by side.  Spans, combinators and primitives. *)
From Verif Require Import Base ModelAst ModelTable ModelLink ModelInline ModelBlock ModelSpan ModelComb
  SpecDoc SpecTree SpecSpan SpecLines ProofBase ProofBytes ProofSpan.

(** * The two texts *)

(** A byte, and whether a carriage return stands before it if it is a newline. *)
Definition tok := (byte * bool)%type.
Definition one (t : tok) : str := if snd t && is_nl (fst t) then [b_cr; b_nl] else [fst t].
Definition u (k : list tok) : str := map fst k.
Definition w (k : list tok) : str := flat_map one k.
Definition clean (l : str) : Prop := ~ In b_nl l /\ ~ In b_cr l.
Definition nocr (k : list tok) : Prop := ~ In b_cr (u k).

Lemma u_app a b : u (a ++ b) = u a ++ u b.
Proof. apply map_app. Qed.
Lemma w_app a b : w (a ++ b) = w a ++ w b.
Proof. apply flat_map_app. Qed.
Lemma u_length k : length (u k) = length k.
Proof. apply map_length. Qed.
Lemma u_firstn n k : firstn n (u k) = u (firstn n k).
Proof. apply firstn_map. Qed.
Lemma u_skipn n k : skipn n (u k) = u (skipn n k).
Proof. apply skipn_map. Qed.
Lemma w_split n k : w k = w (firstn n k) ++ w (skipn n k).
Proof. rewrite <- w_app. now rewrite firstn_skipn. Qed.
Lemma one_plain t : fst t <> b_nl -> one t = [fst t].
Proof. intro H. unfold one, is_nl. apply beqb_neq in H. rewrite H. now rewrite andb_false_r. Qed.
Lemma w_plain k : no_nl (u k) -> w k = u k.
Proof.
  induction k as [|t k IH]; intro H; [reflexivity|]. unfold w. cbn [flat_map]. fold (w k). rewrite IH.
  - rewrite one_plain; [reflexivity|]. intro E. apply H. left. exact E.
  - intro E. apply H. now right.
Qed.
Lemma one_pos t : 1 <= length (one t).
Proof. unfold one. destruct (_ && _); simpl; lia. Qed.
Lemma w_long k : length k <= length (w k).
Proof.
  induction k as [|t k IH]; [reflexivity|]. unfold w. cbn [flat_map]. fold (w k). rewrite app_length. simpl.
  pose proof (one_pos t). lia.
Qed.
Lemma w_nil k : w k = [] -> k = [].
Proof. intro H. pose proof (w_long k) as L. rewrite H in L. destruct k; [reflexivity|simpl in L; lia]. Qed.
Lemma nocr_app a b : nocr (a ++ b) -> nocr a /\ nocr b.
Proof. unfold nocr. rewrite u_app. intro H. split; intro E; apply H, in_or_app; auto. Qed.
Lemma nocr_firstn n k : nocr k -> nocr (firstn n k).
Proof. intro H. rewrite <- (firstn_skipn n k) in H. now apply nocr_app in H. Qed.
Lemma nocr_skipn n k : nocr k -> nocr (skipn n k).
Proof. intro H. rewrite <- (firstn_skipn n k) in H. now apply nocr_app in H. Qed.
Lemma nocr_slice i j k : nocr k -> nocr (slice i j k).
Proof. intro H. unfold slice. now apply nocr_firstn, nocr_skipn. Qed.
Lemma no_nl_app a b : no_nl (a ++ b) <-> no_nl a /\ no_nl b.
Proof. unfold no_nl. rewrite in_app_iff. tauto. Qed.
Lemma no_nl_firstn n l : no_nl l -> no_nl (firstn n l).
Proof. intro H. rewrite <- (firstn_skipn n l) in H. now apply no_nl_app in H. Qed.
Lemma no_nl_skipn n l : no_nl l -> no_nl (skipn n l).
Proof. intro H. rewrite <- (firstn_skipn n l) in H. now apply no_nl_app in H. Qed.

(** Cutting off a prefix without newlines. *)
Lemma w_cut n k : no_nl (firstn n (u k)) -> n <= length k -> w k = firstn n (u k) ++ w (skipn n k).
Proof. intros H L. rewrite (w_split n k), w_plain; rewrite <- ?u_firstn; auto. Qed.
Lemma w_skip n k : no_nl (firstn n (u k)) -> n <= length k -> skipn n (w k) = w (skipn n k).
Proof.
  intros H L. rewrite (w_cut n k H L), skipn_app, firstn_length, u_length, Nat.min_l by lia.
  rewrite Nat.sub_diag, skipn_all2; [reflexivity|]. rewrite firstn_length. lia.
Qed.
Lemma w_first n k : no_nl (firstn n (u k)) -> n <= length k -> firstn n (w k) = firstn n (u k).
Proof.
  intros H L. rewrite (w_cut n k H L), firstn_app, firstn_length, u_length, Nat.min_l by lia.
  rewrite Nat.sub_diag, firstn_firstn, Nat.min_id. simpl. apply app_nil_r.
Qed.

Lemma head_cases k : nocr k ->
  k = [] \/
  (exists t r, k = t :: r /\ fst t <> b_nl /\ fst t <> b_cr /\ u k = fst t :: u r /\ w k = fst t :: w r) \/
  (exists t r, k = t :: r /\ fst t = b_nl /\ u k = b_nl :: u r /\ (w k = b_nl :: w r \/ w k = b_cr :: b_nl :: w r)).
Proof.
  intro H. destruct k as [|t r]; [now left|]. right. destruct (byte_eq_dec (fst t) b_nl) as [E|E].
  - right. exists t, r. split; auto. split; auto. split; [unfold u; simpl; now rewrite E|].
    change (w (t :: r)) with (one t ++ w r). unfold one. rewrite E. destruct (snd t); [right|left]; reflexivity.
  - left. exists t, r. split; auto. split; auto. split; [intro X; apply H; left; auto|]. split; [reflexivity|].
    unfold w. cbn [flat_map]. now rewrite one_plain.
Qed.

Lemma sw_same p k : nocr k -> clean p -> starts_with p (w k) = starts_with p (u k).
Proof.
  revert k. induction p as [|x p IH]; intros k H [C1 C2]; [reflexivity|].
  destruct (head_cases k H) as [->|[(t & r & -> & N1 & N2 & E1 & E2)|(t & r & -> & N1 & E1 & E2)]]; [reflexivity| |].
  - rewrite E1, E2. cbn [starts_with]. rewrite IH; auto.
    + now apply (nocr_app [t]) in H.
    + split; intro X; [apply C1|apply C2]; now right.
  - assert (X1 : beqb x b_nl = false) by (apply beqb_neq; intro X; apply C1; now left).
    assert (X2 : beqb x b_cr = false) by (apply beqb_neq; intro X; apply C2; now left).
    rewrite E1. cbn [starts_with]. destruct E2 as [E2|E2]; rewrite E2; cbn [starts_with]; now rewrite ?X1, ?X2.
Qed.
Lemma sw_prefix p l : starts_with p l = true -> firstn (length p) l = p.
Proof. intro H. apply starts_with_spec in H as [r ->]. rewrite firstn_app, Nat.sub_diag, firstn_all. apply app_nil_r. Qed.

Lemma cw_same p k : nocr k -> p b_nl = false -> p b_cr = false -> count_while p (w k) = count_while p (u k).
Proof.
  intros H P1 P2. induction k as [|t k IH]; [reflexivity|].
  destruct (head_cases _ H) as [E|[(t' & r & E & N1 & N2 & E1 & E2)|(t' & r & E & N1 & E1 & E2)]]; [discriminate| |];
    injection E as <- <-; rewrite E1.
  - rewrite E2. cbn [count_while]. rewrite IH; auto. now apply (nocr_app [t]) in H.
  - cbn [count_while]. rewrite P1. destruct E2 as [-> | ->]; cbn [count_while]; now rewrite ?P1, ?P2.
Qed.
Lemma cw_no_nl p l : p b_nl = false -> no_nl (firstn (count_while p l) l).
Proof.
  intros P H. pose proof (count_while_forall p l) as F. rewrite Forall_forall in F. specialize (F _ H). congruence.
Qed.

Lemma last_same k : nocr k ->
  (u k = [] /\ w k = []) \/ exists a b c, u k = a ++ [c] /\ w k = b ++ [c].
Proof.
  intro H. destruct k as [|t k _] using rev_ind; [left; auto|right]. rewrite u_app, w_app.
  exists (u k). simpl. unfold one. destruct (_ && _) eqn:E.
  - apply andb_true_iff in E as [_ E]. apply beqb_eq in E. exists (w k ++ [b_cr]), b_nl. rewrite E, <- app_assoc. auto.
  - exists (w k), (fst t). auto.
Qed.
(** The run of bytes at the end. *)
Lemma rcw_same p k : nocr k -> p b_nl = false ->
  let n := count_while p (rev (u k)) in
  count_while p (rev (w k)) = n /\ no_nl (skipn (length k - n) (u k)).
Proof.
  intros H P. induction k as [|t k IH] using rev_ind; [split; auto|].
  apply nocr_app in H as [H H1]. destruct (IH H) as [I1 I2]. cbv zeta in *.
  rewrite u_app, w_app, !rev_app_distr. change (w [t]) with (one t ++ []). rewrite app_nil_r.
  change (rev (u [t]) ++ rev (u k)) with (fst t :: rev (u k)). cbn [count_while]. rewrite app_length. cbn [length].
  destruct (byte_eq_dec (fst t) b_nl) as [E|E].
  - assert (X : count_while p (rev (one t) ++ rev (w k)) = 0).
    { unfold one. rewrite E. destruct (snd t); simpl; now rewrite P. }
    rewrite X, E, P. split; [reflexivity|]. rewrite Nat.sub_0_r, skipn_all2; [intros []|]. rewrite app_length, u_length. simpl. lia.
  - rewrite one_plain by auto. change (rev [fst t] ++ rev (w k)) with (fst t :: rev (w k)). cbn [count_while].
    destruct (p (fst t)).
    + rewrite I1. split; [reflexivity|]. rewrite skipn_app. apply no_nl_app. split.
      * replace (length k + 1 - S (count_while p (rev (u k)))) with (length k - count_while p (rev (u k))) by lia. exact I2.
      * apply no_nl_skipn. intros [X|[]]. auto.
    + split; [reflexivity|]. rewrite Nat.sub_0_r, skipn_all2; [intros []|]. rewrite app_length, u_length. simpl. lia.
Qed.

(** * Stops *)

Lemma found_sw pat l i : found pat l i <-> (i <= length l /\ starts_with pat (skipn i l) = true).
Proof. rewrite found_occ. unfold occ. tauto. Qed.

Lemma first_stop_same pats k n : nocr k -> (forall p, In p pats -> clean p) -> first_stop pats (u k) n ->
  first_stop pats (w k) n /\ no_nl (firstn n (u k)) /\ n <= length k.
Proof.
  intros H C (A1 & A2 & A3). rewrite u_length in *.
  assert (N : forall i, i <= n -> no_nl (firstn i (u k))).
  { intros i Hi X. apply In_nth_error in X as [j X]. assert (J : j < i).
    { apply Nat.nle_gt. intro J. rewrite (proj2 (nth_error_None _ _)) in X; [discriminate|]. rewrite firstn_length. lia. }
    rewrite nth_error_firstn in X by auto. destruct (A2 j) as [A _]; [lia|]. apply A. left.
    apply nth_error_split in X as (a & b & X1 & X2). exists a, b. auto. }
  assert (SK : forall i, i <= n -> skipn i (w k) = w (skipn i k)) by (intros i Hi; apply w_skip; [now apply N|lia]).
  split; [|split; [now apply N|exact A1]]. split; [|split].
  - pose proof (w_long k). lia.
  - intros i Hi. destruct (A2 i Hi) as [B1 B2]. split.
    + intro E. assert (X : exists b, nth_error (u k) i = Some b /\ (b = b_nl \/ b = b_cr)).
      { assert (nth_error (firstn n (w k)) i = nth_error (firstn n (u k)) i) as Q by (rewrite w_first; [reflexivity|now apply N|lia]).
        rewrite !nth_error_firstn in Q by auto. destruct E as [(a & b & E1 & E2)|(a & b & E1 & E2)].
        - exists b_nl. rewrite <- Q, E1, <- E2, nth_error_app2, Nat.sub_diag by lia. auto.
        - exists b_cr. rewrite <- Q, E1, <- E2, nth_error_app2, Nat.sub_diag by lia. auto. }
      destruct X as (b & X & [-> | ->]); apply nth_error_In in X; [|now apply H].
      apply (N n (le_n _)). apply In_nth_error in X.
      exfalso. destruct E as [(a & b & E1 & E2)|(a & b & E1 & E2)].
      * assert (Q : nth_error (firstn n (w k)) i = Some b_nl).
        { rewrite nth_error_firstn by auto. rewrite E1, <- E2, nth_error_app2, Nat.sub_diag by lia. reflexivity. }
        rewrite w_first in Q by (try apply N; lia). apply nth_error_In in Q. now apply (N n (le_n _)).
      * assert (Q : nth_error (firstn n (w k)) i = Some b_cr).
        { rewrite nth_error_firstn by auto. rewrite E1, <- E2, nth_error_app2, Nat.sub_diag by lia. reflexivity. }
        rewrite w_first in Q by (try apply N; lia). apply nth_error_In in Q. apply H.
        rewrite <- (firstn_skipn n (u k)). apply in_or_app. now left.
    + intros p Hp F. apply (B2 p Hp). apply found_sw in F as [F1 F2]. apply found_sw. rewrite u_length. split; [lia|].
      rewrite SK in F2 by lia. rewrite u_skipn, <- sw_same; auto using nocr_skipn.
  - destruct A3 as [A3|[A3|(p & P1 & P2)]].
    + left. rewrite w_plain; [now rewrite u_length|]. pose proof (N n (le_n _)) as X. rewrite A3, <- u_length, firstn_all in X. exact X.
    + right. left. assert (F : found [b_nl] (u k) n).
      { destruct A3 as [F|(a & b & F & _)]; auto. exfalso. apply H. rewrite F. apply in_or_app. right. now left. }
      apply found_sw in F as [F1 F2]. rewrite u_skipn in F2.
      destruct (head_cases (skipn n k)) as [E|[(t & r & E & N1 & N2 & E1 & E2)|(t & r & E & N1 & E1 & E2)]]; [now apply nocr_skipn| | |].
      * rewrite E in F2. discriminate.
      * rewrite E1 in F2. cbn [starts_with] in F2. apply andb_true_iff in F2 as [F2 _]. apply beqb_eq in F2. congruence.
      * pose proof (w_long k). destruct E2 as [E2|E2]; [left|right]; apply found_sw; (split; [lia|]); rewrite SK by lia; rewrite E2; reflexivity.
    + right. right. exists p. split; auto. apply found_sw in P2 as [F1 F2]. apply found_sw. pose proof (w_long k).
      split; [lia|]. rewrite SK by lia. rewrite sw_same; auto using nocr_skipn. now rewrite <- u_skipn.
Qed.

(** * Occurrences across lines *)

Fixpoint first_at (pat l : str) : option nat :=
  if starts_with pat l then Some 0 else match l with [] => None | _ :: l' => option_map S (first_at pat l') end.
Lemma first_at_spec pat l : pat <> [] ->
  match first_at pat l with
  | Some n => occ pat l n /\ forall j, j < n -> ~ occ pat l j
  | None => forall j, ~ occ pat l j
  end.
Proof.
  intro P. induction l as [|x l IH].
  - cbn [first_at]. destruct (starts_with pat []) eqn:E.
    + destruct pat; [congruence|discriminate].
    + intros j O. unfold occ in O. rewrite skipn_nil in O. congruence.
  - cbn [first_at]. destruct (starts_with pat (x :: l)) eqn:E.
    + split; [exact E|]. lia.
    + destruct (first_at pat l) as [n|]; simpl.
      * destruct IH as [I1 I2]. split; [exact I1|]. intros [|j] J; [unfold occ; simpl; congruence|].
        apply I2. lia.
      * intros [|j]; [unfold occ; simpl; congruence|]. apply IH.
Qed.
Lemma offset_first pat l : pat <> [] -> offset_of pat l = first_at pat l.
Proof.
  intro P. pose proof (offset_of_spec pat l P) as A. pose proof (first_at_spec pat l P) as B.
  destruct (offset_of pat l) as [n|], (first_at pat l) as [m|]; auto.
  - f_equal. destruct A as [A1 A2], B as [B1 B2]. destruct (Nat.lt_trichotomy n m) as [L|[L|L]]; auto.
    + exfalso. now apply (B2 n).
    + exfalso. now apply (A2 m).
  - exfalso. now apply (B n).
  - exfalso. now apply (A m).
Qed.
Lemma first_at_same pat k : pat <> [] -> clean pat -> nocr k ->
  first_at pat (w k) = option_map (fun n => length (w (firstn n k))) (first_at pat (u k)).
Proof.
  intros P C. induction k as [|t k IH]; intro H.
  - simpl. destruct (starts_with pat []); reflexivity.
  - pose proof (sw_same pat (t :: k) H C) as SW.
    assert (H' : nocr k) by (now apply (nocr_app [t]) in H).
    assert (S0 : forall x l, x = b_nl \/ x = b_cr -> starts_with pat (x :: l) = false).
    { intros x l X. destruct pat as [|y pat]; [congruence|]. cbn [starts_with].
      assert (beqb y x = false) as ->; [|reflexivity]. apply beqb_neq. intros ->. destruct C as [C1 C2].
      destruct X as [-> | ->]; [apply C1|apply C2]; now left. }
    destruct (head_cases _ H) as [E|[(t' & r & E & N1 & N2 & E1 & E2)|(t' & r & E & N1 & E1 & E2)]]; [discriminate| |];
      injection E as <- <-; rewrite E1 in *.
    + rewrite E2 in *. cbn [first_at]. rewrite SW. destruct (starts_with pat (fst t :: u k)); [reflexivity|].
      rewrite IH by auto. destruct (first_at pat (u k)) as [n|]; [|reflexivity]. cbn [option_map firstn]. f_equal.
      unfold w. cbn [flat_map]. rewrite one_plain by auto. reflexivity.
    + cbn [first_at]. rewrite S0 by auto.
      assert (L : forall n, length (w (firstn (S n) (t :: k))) = length (one t) + length (w (firstn n k))).
      { intro n. cbn [firstn]. unfold w. cbn [flat_map]. apply app_length. }
      destruct E2 as [E2|E2]; rewrite E2; cbn [first_at]; rewrite ?S0 by auto; rewrite IH by auto;
        (destruct (first_at pat (u k)) as [n|]; [|reflexivity]); cbn [option_map]; f_equal; rewrite L;
        assert (O : length (w (t :: k)) = length (one t) + length (w k)) by (unfold w; cbn [flat_map]; apply app_length);
        rewrite E2 in O; simpl in O; lia.
Qed.
