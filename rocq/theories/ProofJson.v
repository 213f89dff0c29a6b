(** JSON text: what is written is read back, and the beginning of it is not
    read. *)
From Coq Require Import DecimalN NArith Nnat DecimalFacts.
From Verif Require Import Base ModelSpan ModelAst ModelLink ModelElem ModelJson.
From Verif Require ProofElem2 ProofRound6.

Lemma json_ind' (P : json -> Prop) :
  P JNull -> (forall b, P (JBool b)) -> (forall n, P (JNum n)) -> (forall s, P (JStr s)) ->
  (forall l, Forall P l -> P (JArr l)) ->
  (forall fs, Forall (fun kv => P (snd kv)) fs -> P (JObj fs)) ->
  P JStop -> forall j, P j.
Proof.
  intros H1 H2 H3 H4 H5 H6 H7. fix IH 1. intros [|b|n|s|l|fs|].
  - exact H1.
  - apply H2.
  - apply H3.
  - apply H4.
  - apply H5. induction l as [|x l IHl]; constructor; [apply IH|exact IHl].
  - apply H6. induction fs as [|[k x] fs IHl]; constructor; [apply IH|exact IHl].
  - exact H7.
Qed.

(** * White space *)

Lemma skip_ws_idem s : skip_ws (skip_ws s) = skip_ws s.
Proof. induction s as [|b s IH]; auto. cbn [skip_ws]. destruct (json_ws b) eqn:E; auto. cbn [skip_ws]. now rewrite E. Qed.
Lemma skip_ws_app s m b r : skip_ws s = b :: r -> skip_ws (s ++ m) = b :: r ++ m.
Proof.
  induction s as [|c s IH]; cbn [skip_ws app]; [discriminate|].
  destruct (json_ws c); auto. intros [= -> ->]. auto.
Qed.
Lemma skip_ws_len s : length (skip_ws s) <= length s.
Proof. induction s as [|b s IH]; auto. cbn [skip_ws]. destruct (json_ws b); cbn [length]; lia. Qed.
Lemma skip_ws_indent k s : skip_ws (indent k ++ s) = skip_ws s.
Proof. induction k as [|k IH]; auto. Qed.
Lemma skip_ws_line k s : skip_ws ([x0a] ++ indent k ++ s) = skip_ws s.
Proof. apply skip_ws_indent. Qed.
Lemma next_app c s r m : next c s = Some r -> next c (s ++ m) = Some (r ++ m).
Proof.
  unfold next. destruct (skip_ws s) as [|b q] eqn:E; [discriminate|]. rewrite (skip_ws_app _ m _ _ E).
  destruct (beqb b c); [|discriminate]. now intros [= ->].
Qed.
Lemma next_none_app c s m b r : skip_ws s = b :: r -> next c s = None -> next c (s ++ m) = None.
Proof.
  unfold next. intros E. rewrite E, (skip_ws_app _ m _ _ E). now destruct (beqb b c).
Qed.
Lemma next_len c s r : next c s = Some r -> length r < length s.
Proof.
  unfold next. intro H. pose proof (skip_ws_len s). destruct (skip_ws s) as [|b q]; [discriminate|].
  destruct (beqb b c); [|discriminate]. injection H as ->. cbn [length] in *. lia.
Qed.
Lemma next_some c s r : next c s = Some r -> skip_ws s = c :: r.
Proof.
  unfold next. destruct (skip_ws s) as [|b q]; [discriminate|]. destruct (beqb b c) eqn:E; [|discriminate].
  apply beqb_eq in E. subst. now intros [= ->].
Qed.
Lemma next_ws c s : next c (skip_ws s) = next c s.
Proof. unfold next. now rewrite skip_ws_idem. Qed.

(** * Strings *)

Lemma add_byte_some b x t r : add_byte b x = Some (t, r) -> exists t', x = Some (t', r) /\ t = b :: t'.
Proof. destruct x as [[t' r']|]; cbn [add_byte]; [|discriminate]. intros [= <- <-]. eauto. Qed.

Lemma jstring_facts n : forall s, length s <= n -> forall t r, jstring s = Some (t, r) ->
  length r < length s /\ forall m, jstring (s ++ m) = Some (t, r ++ m).
Proof.
  induction n as [|n IH]; intros [|b s] L t r; try discriminate; cbn [length] in L; [lia|].
  cbn [jstring app]. destruct (beqb b x22).
  { intros [= <- <-]. cbn [length]. auto. }
  destruct (beqb b x5c).
  - destruct s as [|c s]; [discriminate|]. cbn [length app] in *.
    destruct (unescape c) as [x|].
    + intro H. apply add_byte_some in H as (t' & H & ->). apply IH in H as [A B]; [|lia]. split; [lia|].
      intro m. rewrite B. reflexivity.
    + destruct s as [|z1 [|z2 [|h1 [|h2 s]]]]; try discriminate. cbn [length app] in *.
      destruct (beqb c x75 && beqb z1 x30 && beqb z2 x30); [|discriminate].
      destruct (hex_val h1) as [a|]; [|discriminate]. destruct (hex_val h2) as [e|]; [|discriminate].
      destruct (16 * a + e <? 128); [|discriminate].
      intro H. apply add_byte_some in H as (t' & H & ->). apply IH in H as [A B]; [|lia]. split; [lia|].
      intro m. rewrite B. reflexivity.
  - destruct (byte_n b <? 32); [discriminate|].
    intro H. apply add_byte_some in H as (t' & H & ->). apply IH in H as [A B]; [|lia]. split; [cbn [length]; lia|].
    intro m. rewrite B. reflexivity.
Qed.
Lemma jstring_len s t r : jstring s = Some (t, r) -> length r < length s.
Proof. intro H. now destruct (jstring_facts _ s (Nat.le_refl _) _ _ H). Qed.
Lemma jstring_app s t r m : jstring s = Some (t, r) -> jstring (s ++ m) = Some (t, r ++ m).
Proof. intro H. now destruct (jstring_facts _ s (Nat.le_refl _) _ _ H). Qed.

Lemma jstring_escape b s : jstring (escape b ++ s) = add_byte b (jstring s).
Proof. destruct b; reflexivity. Qed.
Lemma jstring_quoted s r : jstring (flat_map escape s ++ [x22] ++ r) = Some (s, r).
Proof.
  induction s as [|b s IH]; [reflexivity|]. cbn [flat_map]. rewrite <- app_assoc, jstring_escape, IH. reflexivity.
Qed.
Lemma jquote_app s r : jquote s ++ r = x22 :: flat_map escape s ++ [x22] ++ r.
Proof. unfold jquote. cbn [app]. now rewrite <- app_assoc. Qed.

(** * Numbers *)

Definition stops (r : str) : Prop := match r with b :: _ => is_digit b = false /\ existsb (beqb b) (bs ".eE") = false | [] => True end.

Lemma count_digits d r : Forall (fun b => is_digit b = true) d -> stops r -> count_while is_digit (d ++ r) = length d.
Proof.
  induction 1 as [|b d Hb H IH]; intro S.
  - destruct r as [|b r]; auto. cbn [app count_while]. destruct S as [-> _]. reflexivity.
  - cbn [app count_while length]. rewrite Hb. auto.
Qed.
Lemma dec_no_zero n : 1 < length (dec n) -> starts_with [x30] (dec n) = false.
Proof.
  unfold dec. intro L. assert (U : Decimal.unorm (N.to_uint n) = N.to_uint n).
  { rewrite <- DecimalN.Unsigned.to_of. now rewrite DecimalN.Unsigned.of_to. }
  destruct (N.to_uint n) as [|u|u|u|u|u|u|u|u|u|u]; try reflexivity. exfalso.
  unfold Decimal.unorm in U. destruct (Decimal.nzhead (Decimal.D0 u)) eqn:Z; try discriminate.
  - injection U as <-. cbn in L. lia.
  - exact (nzhead_nonzero _ _ Z).
Qed.
Lemma jnumber_dec n r : stops r -> jnumber (dec n ++ r) = Some (JNum n, r).
Proof.
  intro S. destruct (ProofRound6.dec_facts n) as [D Ne]. unfold jnumber. rewrite (count_digits _ _ D S).
  rewrite firstn_app, firstn_all, Nat.sub_diag, firstn_O, app_nil_r.
  rewrite skipn_app, skipn_all, Nat.sub_diag, skipn_O. cbn [app].
  replace ((1 <? length (dec n)) && starts_with [x30] (dec n)) with false.
  - assert (digits_val (dec n) = n) as ->.
    { unfold digits_val, dec. now rewrite ProofRound6.fold_digits, ProofElem2.dval_of_uint, DecimalN.Unsigned.of_to. }
    destruct r as [|b r]; auto. destruct S as [_ ->]. reflexivity.
  - destruct (1 <? length (dec n)) eqn:E; auto. apply Nat.ltb_lt in E. now rewrite dec_no_zero.
Qed.
Lemma jnumber_some s j r : jnumber s = Some (j, r) ->
  exists n, j = JNum n /\ length r = length s - count_while is_digit s /\
  forall m, r <> [] -> jnumber (s ++ m) = Some (j, r ++ m).
Proof.
  unfold jnumber. set (k := count_while is_digit s).
  destruct ((1 <? k) && starts_with [x30] (firstn k s)) eqn:Z; [discriminate|].
  assert (K : k <= length s) by (subst k; clear; induction s as [|b s IH]; cbn [count_while length]; [lia|destruct (is_digit b); lia]).
  intro H. assert (E : j = JNum (digits_val (firstn k s)) /\ r = skipn k s).
  { destruct (skipn k s) as [|b q]; [|destruct (existsb (beqb b) (bs ".eE")); [discriminate|]]; injection H as <- <-; auto. }
  destruct E as [-> ->]. exists (digits_val (firstn k s)). split; auto. split; [apply skipn_length|].
  intros m Ne. assert (count_while is_digit (s ++ m) = k) as ->.
  { subst k. clear - Ne. induction s as [|b s IH]; cbn [count_while app] in *; [destruct Ne; reflexivity|].
    destruct (is_digit b); auto. }
  assert (L : k < length s). { destruct (Nat.lt_ge_cases k (length s)) as [|G]; auto. rewrite skipn_all2 in Ne by lia. congruence. }
  rewrite firstn_app, skipn_app. replace (k - length s) with 0 by lia. rewrite firstn_O, skipn_O, app_nil_r, Z.
  destruct (skipn k s) as [|b q]; [congruence|]. cbn [app]. destruct (existsb (beqb b) (bs ".eE")); [discriminate|]. reflexivity.
Qed.

(** * Reading *)

(** What follows does not change what was read. *)
Definition settled (j : json) (r : str) : Prop := match j with JNum _ => r <> [] | _ => True end.

Lemma starts_with_app p s m : starts_with p s = true -> starts_with p (s ++ m) = true.
Proof. rewrite !starts_with_spec. intros [r ->]. exists (r ++ m). now rewrite app_assoc. Qed.
Lemma skipn_starts p s m k : starts_with p s = true -> k <= length p -> skipn k (s ++ m) = skipn k s ++ m.
Proof.
  intros H L. apply starts_with_spec in H as [r ->]. rewrite !skipn_app. rewrite !app_length.
  replace (k - (length p + length r)) with 0 by lia. now rewrite skipn_O.
Qed.

Lemma Some_pair {A B} (a a' : A) (b b' : B) : Some (a, b) = Some (a', b') -> a = a' /\ b = b'.
Proof. now intros [= <- <-]. Qed.

Section Read.
Let V f := forall d s j r, 0 < d -> jvalue f d s = Some (j, r) ->
  length r < length s /\ jdepth j < d /\ (forall m, settled j r -> jvalue f d (s ++ m) = Some (j, r ++ m)) /\
  (exists b q, skip_ws s = b :: q /\ b <> x5d /\ b <> x7d) /\ (forall f' d', f <= f' -> d <= d' -> jvalue f' d' s = Some (j, r)).
Let E f := forall d s l r, 0 < d -> jelements f d s = Some (l, r) ->
  length r < length s /\ fold_right (fun x n => Nat.max (jdepth x) n) 0 l < d /\ (forall m, jelements f d (s ++ m) = Some (l, r ++ m)) /\
  (exists b q, skip_ws s = b :: q /\ b <> x5d) /\ (forall f' d', f <= f' -> d <= d' -> jelements f' d' s = Some (l, r)).
Let M f := forall d s l r, 0 < d -> jmembers f d s = Some (l, r) ->
  length r < length s /\ fold_right (fun kv n => Nat.max (jdepth (snd kv)) n) 0 l < d /\ (forall m, jmembers f d (s ++ m) = Some (l, r ++ m)) /\
  (exists b q, skip_ws s = b :: q /\ b <> x7d) /\ (forall f' d', f <= f' -> d <= d' -> jmembers f' d' s = Some (l, r)).

Lemma enter_some d e : enter d = Some e -> 0 < e /\ d = S e.
Proof. destruct d as [|[|d]]; try discriminate. intros [= <-]. lia. Qed.
Lemma enter_le d e d' : enter d = Some e -> d <= d' -> exists e', enter d' = Some e' /\ e <= e'.
Proof.
  intros H L. apply enter_some in H as [H ->]. destruct d' as [|[|d']]; try lia. exists (S d'). split; [reflexivity|lia].
Qed.

Lemma reads f : V f /\ E f /\ M f.
Proof.
  induction f as [|f (IV & IE & IM)]; [repeat split; intros; discriminate|]. split; [|split].
  - intros d s j r D0 H. cbn [jvalue] in H. destruct (skip_ws s) as [|b q] eqn:W; [discriminate|].
    assert (LS := skip_ws_len s). rewrite W in LS. cbn [length] in LS.
    assert (KA : forall m, skip_ws (s ++ m) = b :: q ++ m) by (intro m; exact (skip_ws_app _ m _ _ W)).
    destruct (beqb b x7b) eqn:B1.
    { apply beqb_eq in B1. subst b. destruct (enter d) as [e|] eqn:En; [|discriminate].
      destruct (enter_some _ _ En) as [P1 ->].
      destruct (next x7d q) as [q'|] eqn:N.
      - injection H as <- <-. pose proof (next_len _ _ _ N). split; [lia|]. split; [cbn; lia|]. split; [|split].
        + intros m _. cbn [jvalue]. rewrite KA, beqb_refl, En, (next_app _ _ _ m N). reflexivity.
        + exists x7b, q. repeat split; congruence.
        + intros f' d' Lf Ld. destruct f' as [|f']; [lia|]. cbn [jvalue].
          destruct (enter_le _ _ _ En Ld) as (e' & En' & Le). now rewrite W, beqb_refl, En', N.
      - destruct (jmembers f e q) as [[l q']|] eqn:J; [|discriminate]. injection H as <- <-.
        destruct (IM _ _ _ _ P1 J) as (A1 & A2 & A3 & (b & q2 & A4 & A4') & A5). split; [lia|].
        split; [cbn [jdepth]; lia|]. split; [|split].
        + intros m _. cbn [jvalue]. rewrite KA, beqb_refl, En, (next_none_app _ _ m _ _ A4 N), A3. reflexivity.
        + exists x7b, q. repeat split; congruence.
        + intros f' d' Lf Ld. destruct f' as [|f']; [lia|]. cbn [jvalue].
          destruct (enter_le _ _ _ En Ld) as (e' & En' & Le). rewrite W, beqb_refl, En', N, A5 by lia. reflexivity. }
    destruct (beqb b x5b) eqn:B2.
    { apply beqb_eq in B2. subst b. destruct (enter d) as [e|] eqn:En; [|discriminate].
      destruct (enter_some _ _ En) as [P1 ->].
      destruct (next x5d q) as [q'|] eqn:N.
      - injection H as <- <-. pose proof (next_len _ _ _ N). split; [lia|]. split; [cbn; lia|]. split; [|split].
        + intros m _. cbn [jvalue]. rewrite KA, B1, beqb_refl, En, (next_app _ _ _ m N). reflexivity.
        + exists x5b, q. repeat split; congruence.
        + intros f' d' Lf Ld. destruct f' as [|f']; [lia|]. cbn [jvalue].
          destruct (enter_le _ _ _ En Ld) as (e' & En' & Le). now rewrite W, B1, beqb_refl, En', N.
      - destruct (jelements f e q) as [[l q']|] eqn:J; [|discriminate]. injection H as <- <-.
        destruct (IE _ _ _ _ P1 J) as (A1 & A2 & A3 & (b & q2 & A4 & A4') & A5). split; [lia|].
        split; [cbn [jdepth]; lia|]. split; [|split].
        + intros m _. cbn [jvalue]. rewrite KA, B1, beqb_refl, En, (next_none_app _ _ m _ _ A4 N), A3. reflexivity.
        + exists x5b, q. repeat split; congruence.
        + intros f' d' Lf Ld. destruct f' as [|f']; [lia|]. cbn [jvalue].
          destruct (enter_le _ _ _ En Ld) as (e' & En' & Le). rewrite W, B1, beqb_refl, En', N, A5 by lia. reflexivity. }
    assert (NB : b <> x5d /\ b <> x7d).
    { split; intros ->; cbn in H; discriminate. }
    destruct (beqb b x22) eqn:B3.
    { destruct (jstring q) as [[t q']|] eqn:J; [|discriminate]. injection H as <- <-.
      pose proof (jstring_len _ _ _ J). split; [lia|]. split; [exact D0|]. split; [|split].
      - intros m _. cbn [jvalue]. rewrite KA, B1, B2, B3, (jstring_app _ _ _ m J). reflexivity.
      - exists b, q. tauto.
      - intros f' d' Lf Ld. destruct f' as [|f']; [lia|]. cbn [jvalue]. now rewrite W, B1, B2, B3, J. }
    destruct (is_digit b) eqn:B4.
    { destruct (jnumber_some _ _ _ H) as (n & -> & A1 & A2). split.
      { rewrite A1. cbn [count_while length]. rewrite B4. lia. }
      split; [exact D0|]. split; [|split].
      - intros m Ne. cbn [jvalue]. rewrite KA, B1, B2, B3, B4. apply (A2 m Ne).
      - exists b, q. tauto.
      - intros f' d' Lf Ld. destruct f' as [|f']; [lia|]. cbn [jvalue]. now rewrite W, B1, B2, B3, B4. }
    assert (FF : forall j' r', (jvalue (S f) d s = Some (j', r')) -> forall f' d', S f <= f' -> d <= d' -> jvalue f' d' s = Some (j', r')).
    { intros j' r' H' f' d' Lf Ld. destruct f' as [|f']; [lia|]. cbn [jvalue] in *. rewrite W, B1, B2, B3, B4 in *. exact H'. }
    specialize (FF j r). cbn [jvalue] in FF. rewrite W, B1, B2, B3, B4 in FF. specialize (FF H).
    assert (G : (forall m, settled j r -> jvalue (S f) d (s ++ m) = Some (j, r ++ m)) /\ length r < length s /\ jdepth j = 0).
    { cbn [jvalue]. destruct (starts_with (bs "null") (b :: q)) eqn:S1; [|destruct (starts_with (bs "true") (b :: q)) eqn:S2; [|destruct (starts_with (bs "false") (b :: q)) eqn:S3; [|discriminate]]];
        apply Some_pair in H as [<- <-]; split.
      - intros m _. rewrite KA, B1, B2, B3, B4. assert (S' := starts_with_app _ _ m S1). cbn [app] in S'. rewrite S'.
        do 2 f_equal. exact (skipn_starts _ _ m 4 S1 (Nat.le_refl _)).
      - split; auto. rewrite skipn_length. lia.
      - intros m _. rewrite KA, B1, B2, B3, B4. assert (S' := starts_with_app _ _ m S2). cbn [app] in S'. rewrite S'.
        assert (starts_with (bs "null") (b :: q ++ m) = false) as ->.
        { apply starts_with_spec in S2 as [z S2]. injection S2 as -> _. reflexivity. }
        do 2 f_equal. exact (skipn_starts _ _ m 4 S2 (Nat.le_refl _)).
      - split; auto. rewrite skipn_length. lia.
      - intros m _. rewrite KA, B1, B2, B3, B4. assert (S' := starts_with_app _ _ m S3). cbn [app] in S'. rewrite S'.
        assert (starts_with (bs "null") (b :: q ++ m) = false /\ starts_with (bs "true") (b :: q ++ m) = false) as [-> ->].
        { apply starts_with_spec in S3 as [z S3]. injection S3 as -> _. split; reflexivity. }
        do 2 f_equal. exact (skipn_starts _ _ m 5 S3 (Nat.le_refl _)).
      - split; auto. rewrite skipn_length. lia. }
    destruct G as (G1 & G2 & G3). split; [exact G2|]. split; [lia|]. split; [exact G1|]. split; [|exact FF].
    exists b, q. tauto.
  - intros d s l r D0 H. cbn [jelements] in H. destruct (jvalue f d s) as [[x q]|] eqn:J; [|discriminate].
    destruct (IV _ _ _ _ D0 J) as (A1 & A2 & A3 & (b & q2 & A4 & A4' & _) & A5).
    assert (Q : q <> [] -> settled x q) by (destruct x; cbn; auto).
    destruct (next x2c q) as [q'|] eqn:N.
    + destruct (jelements f d q') as [[l' q3]|] eqn:JE; [|discriminate]. injection H as <- <-.
      destruct (IE _ _ _ _ D0 JE) as (C1 & C2 & C3 & C4 & C5). pose proof (next_len _ _ _ N).
      assert (Ne : q <> []) by (intros ->; discriminate).
      split; [lia|]. split; [cbn [fold_right]; lia|]. split; [|split].
      * intro m. cbn [jelements]. rewrite A3, (next_app _ _ _ m N), C3 by auto. reflexivity.
      * eauto.
      * intros f' d' Lf Ld. destruct f' as [|f']; [lia|]. cbn [jelements]. rewrite A5, N, C5 by lia. reflexivity.
    + destruct (next x5d q) as [q'|] eqn:N2; [|discriminate]. injection H as <- <-. pose proof (next_len _ _ _ N2).
      assert (Ne : q <> []) by (intros ->; discriminate).
      split; [lia|]. split; [cbn [fold_right]; lia|]. split; [|split].
      * intro m. cbn [jelements]. rewrite A3, (next_none_app _ _ m _ _ (next_some _ _ _ N2) N), (next_app _ _ _ m N2) by auto. reflexivity.
      * eauto.
      * intros f' d' Lf Ld. destruct f' as [|f']; [lia|]. cbn [jelements]. rewrite A5, N, N2 by lia. reflexivity.
  - intros d s l r D0 H. cbn [jmembers] in H. destruct (next x22 s) as [s1|] eqn:N1; [|discriminate].
    destruct (jstring s1) as [[k s2]|] eqn:JS; [|discriminate]. destruct (next x3a s2) as [s3|] eqn:N3; [|discriminate].
    pose proof (next_len _ _ _ N1). pose proof (jstring_len _ _ _ JS). pose proof (next_len _ _ _ N3).
    destruct (jvalue f d s3) as [[x q]|] eqn:J; [|discriminate].
    destruct (IV _ _ _ _ D0 J) as (A1 & A2 & A3 & (b & q2 & A4 & _ & _) & A5).
    assert (Q : q <> [] -> settled x q) by (destruct x; cbn; auto).
    assert (KS : exists b q, skip_ws s = b :: q /\ b <> x7d).
    { exists x22, s1. split; [exact (next_some _ _ _ N1)|discriminate]. }
    destruct (next x2c q) as [q'|] eqn:N.
    + destruct (jmembers f d q') as [[l' q3]|] eqn:JE; [|discriminate]. injection H as <- <-.
      destruct (IM _ _ _ _ D0 JE) as (C1 & C2 & C3 & C4 & C5). pose proof (next_len _ _ _ N).
      assert (Ne : q <> []) by (intros ->; discriminate).
      split; [lia|]. split; [cbn [fold_right snd]; lia|]. split; [|split].
      * intro m. cbn [jmembers]. rewrite (next_app _ _ _ m N1), (jstring_app _ _ _ m JS), (next_app _ _ _ m N3), A3, (next_app _ _ _ m N), C3 by auto. reflexivity.
      * exact KS.
      * intros f' d' Lf Ld. destruct f' as [|f']; [lia|]. cbn [jmembers]. rewrite N1, JS, N3, A5, N, C5 by lia. reflexivity.
    + destruct (next x7d q) as [q'|] eqn:N2; [|discriminate]. injection H as <- <-. pose proof (next_len _ _ _ N2).
      assert (Ne : q <> []) by (intros ->; discriminate).
      split; [lia|]. split; [cbn [fold_right snd]; lia|]. split; [|split].
      * intro m. cbn [jmembers]. rewrite (next_app _ _ _ m N1), (jstring_app _ _ _ m JS), (next_app _ _ _ m N3), A3, (next_none_app _ _ m _ _ (next_some _ _ _ N2) N), (next_app _ _ _ m N2) by auto. reflexivity.
      * exact KS.
      * intros f' d' Lf Ld. destruct f' as [|f']; [lia|]. cbn [jmembers]. rewrite N1, JS, N3, A5, N, N2 by lia. reflexivity.
Qed.
End Read.

Lemma jvalue_facts f d s j r : 0 < d -> jvalue f d s = Some (j, r) ->
  length r < length s /\ jdepth j < d /\ (forall m, settled j r -> jvalue f d (s ++ m) = Some (j, r ++ m)) /\
  (forall f' d', f <= f' -> d <= d' -> jvalue f' d' s = Some (j, r)).
Proof. intros D H. destruct (reads f) as (V & _ & _). destruct (V _ _ _ _ D H) as (A & B & C & _ & E). auto. Qed.

(** ** Fuel *)

Lemma enough f' :
  (forall d s x f, 0 < d -> 2 * length s + 1 <= f -> jvalue f' d s = Some x -> jvalue f d s = Some x) /\
  (forall d s x f, 0 < d -> 2 * length s + 2 <= f -> jelements f' d s = Some x -> jelements f d s = Some x) /\
  (forall d s x f, 0 < d -> 2 * length s + 2 <= f -> jmembers f' d s = Some x -> jmembers f d s = Some x).
Proof.
  induction f' as [|g (IV & IE & IM)]; [repeat split; intros; discriminate|]. destruct (reads g) as (RV & RE & RM).
  split; [|split]; intros d s x [|h] D L H; try lia.
  - cbn [jvalue] in *. pose proof (skip_ws_len s) as LS. destruct (skip_ws s) as [|b q]; [discriminate|]. cbn [length] in LS.
    destruct (beqb b x7b).
    { destruct (enter d) as [e|] eqn:En; [|discriminate]. destruct (enter_some _ _ En) as [P1 ->].
      destruct (next x7d q); [exact H|]. destruct (jmembers g e q) as [y|] eqn:J; [|discriminate].
      rewrite (IM e q y h P1) by (auto; lia). exact H. }
    destruct (beqb b x5b); [|exact H].
    destruct (enter d) as [e|] eqn:En; [|discriminate]. destruct (enter_some _ _ En) as [P1 ->].
    destruct (next x5d q); [exact H|]. destruct (jelements g e q) as [y|] eqn:J; [|discriminate].
    rewrite (IE e q y h P1) by (auto; lia). exact H.
  - cbn [jelements] in *. destruct (jvalue g d s) as [[y q]|] eqn:J; [|discriminate].
    destruct (RV _ _ _ _ D J) as (A1 & _). rewrite (IV d s (y, q) h) by (auto; lia).
    destruct (next x2c q) as [q'|] eqn:N; [|exact H]. pose proof (next_len _ _ _ N).
    destruct (jelements g d q') as [z|] eqn:JE; [|discriminate]. rewrite (IE d q' z h) by (auto; lia). exact H.
  - cbn [jmembers] in *. destruct (next x22 s) as [s1|] eqn:N1; [|discriminate].
    destruct (jstring s1) as [[k s2]|] eqn:JS; [|discriminate]. destruct (next x3a s2) as [s3|] eqn:N3; [|discriminate].
    pose proof (next_len _ _ _ N1). pose proof (jstring_len _ _ _ JS). pose proof (next_len _ _ _ N3).
    destruct (jvalue g d s3) as [[y q]|] eqn:J; [|discriminate].
    destruct (RV _ _ _ _ D J) as (A1 & _). rewrite (IV d s3 (y, q) h) by (auto; lia).
    destruct (next x2c q) as [q'|] eqn:N; [|exact H]. pose proof (next_len _ _ _ N).
    destruct (jmembers g d q') as [z|] eqn:JE; [|discriminate]. rewrite (IM d q' z h) by (auto; lia). exact H.
Qed.
(** The fuel of [jread] is never used up: with more of it the result is the
    same. *)
Lemma jread_fuel s d f : 0 < d -> 2 * S (length s) <= f -> jvalue f d s = jvalue (2 * S (length s)) d s.
Proof.
  intros D L. destruct (jvalue f d s) as [x|] eqn:H.
  - symmetry. destruct (enough f) as (V & _ & _). apply V; auto. lia.
  - destruct (jvalue (2 * S (length s)) d s) as [[j r]|] eqn:K; auto.
    destruct (jvalue_facts _ _ _ _ _ D K) as (_ & _ & _ & M). rewrite M in H by lia. discriminate.
Qed.

(** * Writing *)

Fixpoint jitems (k : nat) (sep : str) (l : list json) : str * bool :=
  match l with
  | [] => wrote []
  | x :: l' => andthen (wrote (sep ++ [x0a] ++ indent (S k))) (andthen (jprint (S k) x) (jitems k [x2c] l'))
  end.
Fixpoint jfields (k : nat) (sep : str) (fs : list (str * json)) : str * bool :=
  match fs with
  | [] => wrote []
  | (f, x) :: fs' =>
      andthen (wrote (sep ++ [x0a] ++ indent (S k) ++ jquote f ++ [x3a; x20])) (andthen (jprint (S k) x) (jfields k [x2c] fs'))
  end.
Lemma jprint_arr k x l : jprint k (JArr (x :: l)) =
  andthen (wrote (bs "[")) (andthen (jitems k [] (x :: l)) (wrote ([x0a] ++ indent k ++ [x5d]))).
Proof.
  assert (G : forall l sep, (fix go (sep : str) (l : list json) : str * bool :=
     match l with
     | [] => wrote []
     | x :: l' => andthen (wrote (sep ++ [x0a] ++ indent (S k))) (andthen (jprint (S k) x) (go [x2c] l'))
     end) sep l = jitems k sep l).
  { clear. induction l as [|y l IH]; intro sep; [reflexivity|]. cbn [jitems]. rewrite <- IH. reflexivity. }
  rewrite <- G. reflexivity.
Qed.
Lemma jprint_obj k x l : jprint k (JObj (x :: l)) =
  andthen (wrote (bs "{")) (andthen (jfields k [] (x :: l)) (wrote ([x0a] ++ indent k ++ [x7d]))).
Proof.
  assert (G : forall l sep, (fix go (sep : str) (fs : list (str * json)) : str * bool :=
     match fs with
     | [] => wrote []
     | (f, x) :: fs' => andthen (wrote (sep ++ [x0a] ++ indent (S k) ++ jquote f ++ [x3a; x20])) (andthen (jprint (S k) x) (go [x2c] fs'))
     end) sep l = jfields k sep l).
  { clear. induction l as [|[f y] l IH]; intro sep; [reflexivity|]. cbn [jfields]. rewrite <- IH. reflexivity. }
  rewrite <- G. reflexivity.
Qed.
Lemma andthen_ok a b : snd a = true -> andthen a b = (fst a ++ fst b, snd b).
Proof. unfold andthen. now intros ->. Qed.
Lemma andthen_snd a b : snd (andthen a b) = snd a && snd b.
Proof. unfold andthen. destruct a as [a []]; reflexivity. Qed.

Lemma jprint_whole j : forall k, snd (jprint k j) = whole j.
Proof.
  induction j as [|[]| | |l IH|fs IH|] using json_ind'; intro k; try reflexivity.
  - destruct l as [|x l]; [reflexivity|]. rewrite jprint_arr, !andthen_snd. cbn [wrote snd whole].
    rewrite andb_true_r. cbn [andb]. generalize (@nil byte). generalize dependent (x :: l). clear x l.
    intros l IH. induction IH as [|y l Hy H IHl]; intro sep; [reflexivity|]. cbn [jitems forallb].
    rewrite !andthen_snd. cbn [wrote snd andb]. now rewrite Hy, IHl.
  - destruct fs as [|x l]; [reflexivity|]. rewrite jprint_obj, !andthen_snd. cbn [wrote snd whole].
    rewrite andb_true_r. cbn [andb]. generalize (@nil byte). generalize dependent (x :: l). clear x l.
    intros l IH. induction IH as [|[f y] l Hy H IHl]; intro sep; [reflexivity|]. cbn [jfields forallb snd].
    rewrite !andthen_snd. cbn [wrote snd andb] in *. now rewrite Hy, IHl.
Qed.

(** The first byte of a value. *)
Lemma jprint_head j k : exists b q, fst (jprint k j) = b :: q /\ json_ws b = false /\ b <> x5d /\ b <> x7d.
Proof.
  destruct j as [|[]|n|s|[|x l]|[|x l]|];
    try (eexists _, _; split; [reflexivity|]; repeat split; discriminate).
  - cbn [jprint wrote fst]. destruct (ProofRound6.dec_facts n) as [D Ne]. destruct (dec n) as [|b q]; [congruence|].
    exists b, q. inversion D as [|? ? Hb]; subst. repeat split; auto; destruct b; try reflexivity; discriminate.
Qed.
Lemma jprint_skip j k r : skip_ws (fst (jprint k j) ++ r) = fst (jprint k j) ++ r.
Proof. destruct (jprint_head j k) as (b & q & -> & W & _). cbn [app skip_ws]. now rewrite W. Qed.
(** ** What is written is read back *)

Lemma jvalue_ws f d s s' : skip_ws s = skip_ws s' -> jvalue f d s = jvalue f d s'.
Proof. intro E. destruct f; [reflexivity|]. cbn [jvalue]. now rewrite E. Qed.
Lemma jelements_ws f d s s' : skip_ws s = skip_ws s' -> jelements f d s = jelements f d s'.
Proof. intro E. destruct f; [reflexivity|]. cbn [jelements]. now rewrite (jvalue_ws _ _ _ _ E). Qed.
Lemma jitems_sep k x l : fst (jitems k [x2c] (x :: l)) = x2c :: fst (jitems k [] (x :: l)).
Proof. cbn [jitems]. rewrite !andthen_ok by reflexivity. reflexivity. Qed.
Lemma jfields_sep k x l : fst (jfields k [x2c] (x :: l)) = x2c :: fst (jfields k [] (x :: l)).
Proof. destruct x as [f x]. cbn [jfields]. rewrite !andthen_ok by reflexivity. reflexivity. Qed.
Lemma fst_andthen a b : snd a = true -> fst (andthen a b) = fst a ++ fst b.
Proof. intro H. now rewrite andthen_ok. Qed.
Lemma jitems_cons k sep x l : whole x = true ->
  fst (jitems k sep (x :: l)) = sep ++ [x0a] ++ indent (S k) ++ fst (jprint (S k) x) ++ fst (jitems k [x2c] l).
Proof.
  intro W. cbn [jitems]. rewrite fst_andthen by reflexivity. rewrite fst_andthen by (now rewrite jprint_whole).
  cbn [wrote fst]. now rewrite <- !app_assoc.
Qed.
Lemma jfields_cons k sep f x l : whole x = true ->
  fst (jfields k sep ((f, x) :: l)) = sep ++ [x0a] ++ indent (S k) ++ jquote f ++ [x3a; x20] ++ fst (jprint (S k) x) ++ fst (jfields k [x2c] l).
Proof.
  intro W. cbn [jfields]. rewrite fst_andthen by reflexivity. rewrite fst_andthen by (now rewrite jprint_whole).
  cbn [wrote fst]. now rewrite <- !app_assoc.
Qed.
Lemma jitems_ok k l : forall sep, forallb whole l = true -> snd (jitems k sep l) = true.
Proof.
  induction l as [|x l IH]; intros sep H; [reflexivity|]. cbn [forallb] in H. apply andb_true_iff in H as [Hx H].
  cbn [jitems]. rewrite !andthen_snd, jprint_whole, Hx, IH by auto. reflexivity.
Qed.
Lemma jfields_ok k l : forall sep, forallb (fun kv => whole (snd kv)) l = true -> snd (jfields k sep l) = true.
Proof.
  induction l as [|[f x] l IH]; intros sep H; [reflexivity|]. cbn [forallb snd] in H. apply andb_true_iff in H as [Hx H].
  cbn [jfields]. rewrite !andthen_snd, jprint_whole, Hx, IH by auto. reflexivity.
Qed.

Definition ends (j : json) (r : str) : Prop := match j with JNum _ => stops r | _ => True end.
Definition read_whole (j : json) : Prop := forall k d r, whole j = true -> jdepth j < d -> ends j r ->
  exists f, jvalue f d (fst (jprint k j) ++ r) = Some (j, r).

Lemma lt_pos a b : a < b -> 0 < b.
Proof. lia. Qed.
Lemma items_read l : Forall read_whole l -> l <> [] -> forall k d r, forallb whole l = true ->
  fold_right (fun x n => Nat.max (jdepth x) n) 0 l < d ->
  exists f, jelements f d (fst (jitems k [] l) ++ ([x0a] ++ indent k ++ [x5d]) ++ r) = Some (l, r).
Proof.
  induction 1 as [|x l Hx H IH]; intros Ne k d r W D; [congruence|]. cbn [forallb fold_right] in *.
  apply andb_true_iff in W as [Wx W].
  destruct l as [|y l].
  - destruct (Hx (S k) d (([x0a] ++ indent k ++ [x5d]) ++ r) Wx ltac:(lia)) as [f F].
    { destruct x; cbn; auto. }
    exists (S f). cbn [jelements]. rewrite jitems_cons by auto. cbn [jitems wrote fst]. rewrite app_nil_r.
    rewrite <- !app_assoc. cbn [app].
    rewrite (jvalue_ws _ _ _ (fst (jprint (S k) x) ++ ([x0a] ++ indent k ++ [x5d]) ++ r)).
    + rewrite F. unfold next. rewrite <- !app_assoc, skip_ws_line. reflexivity.
    + rewrite <- !app_assoc. exact (skip_ws_line (S k) _).
  - destruct (IH ltac:(discriminate) k d r W ltac:(lia)) as [g G].
    destruct (Hx (S k) d (x2c :: fst (jitems k [] (y :: l)) ++ ([x0a] ++ indent k ++ [x5d]) ++ r) Wx ltac:(lia)) as [f F].
    { destruct x; cbn; auto. }
    exists (S (Nat.max f g)). cbn [jelements]. rewrite jitems_cons by auto. rewrite jitems_sep.
    rewrite (jvalue_ws _ _ _ (fst (jprint (S k) x) ++ x2c :: fst (jitems k [] (y :: l)) ++ ([x0a] ++ indent k ++ [x5d]) ++ r)).
    + destruct (jvalue_facts _ _ _ _ _ (lt_pos _ _ D) F) as (_ & _ & _ & M). rewrite M by lia.
      unfold next. cbn [skip_ws json_ws]. rewrite beqb_refl.
      destruct (reads g) as (_ & RE & _). destruct (RE _ _ _ _ (lt_pos _ _ D) G) as (_ & _ & _ & _ & M2).
      rewrite M2 by lia. reflexivity.
    + rewrite <- !app_assoc. cbn [app]. exact (skip_ws_line (S k) _).
Qed.
Lemma fields_read l : Forall (fun kv => read_whole (snd kv)) l -> l <> [] -> forall k d r, forallb (fun kv => whole (snd kv)) l = true ->
  fold_right (fun kv n => Nat.max (jdepth (snd kv)) n) 0 l < d ->
  exists f, jmembers f d (fst (jfields k [] l) ++ ([x0a] ++ indent k ++ [x7d]) ++ r) = Some (l, r).
Proof.
  induction 1 as [|[n x] l Hx H IH]; intros Ne k d r W D; [congruence|]. cbn [forallb fold_right snd] in *.
  apply andb_true_iff in W as [Wx W].
  assert (Q : forall f z, jmembers (S f) d (([x0a] ++ indent (S k) ++ jquote n ++ [x3a; x20] ++ fst (jprint (S k) x) ++ z)) =
    match jvalue f d (fst (jprint (S k) x) ++ z) with
    | Some (x, r) =>
        match next x2c r with
        | Some r => match jmembers f d r with Some (l, r) => Some ((n, x) :: l, r) | None => None end
        | None => match next x7d r with Some r => Some ([(n, x)], r) | None => None end
        end
    | None => None
    end).
  { intros f z. cbn [jmembers]. unfold next at 1. rewrite skip_ws_line, jquote_app. cbn [skip_ws]. cbn [json_ws]. rewrite beqb_refl.
    rewrite jstring_quoted. unfold next at 1. cbn [app skip_ws json_ws]. rewrite beqb_refl.
    now rewrite (jvalue_ws f d (x20 :: fst (jprint (S k) x) ++ z) (fst (jprint (S k) x) ++ z)) by reflexivity. }
  destruct l as [|[n' y] l].
  - destruct (Hx (S k) d (([x0a] ++ indent k ++ [x7d]) ++ r) Wx ltac:(lia)) as [f F].
    { destruct x; cbn; auto. }
    exists (S f). rewrite jfields_cons by auto. cbn [jfields wrote fst]. rewrite app_nil_r.
    rewrite <- !app_assoc in *. cbn [app] in *. rewrite Q. cbn [app] in *.
    rewrite F. unfold next. cbn [skip_ws json_ws]. rewrite skip_ws_indent. reflexivity.
  - destruct (IH ltac:(discriminate) k d r W ltac:(lia)) as [g G].
    destruct (Hx (S k) d (x2c :: fst (jfields k [] ((n', y) :: l)) ++ ([x0a] ++ indent k ++ [x7d]) ++ r) Wx ltac:(lia)) as [f F].
    { destruct x; cbn; auto. }
    exists (S (Nat.max f g)). rewrite jfields_cons by auto. rewrite jfields_sep.
    rewrite <- !app_assoc in *. cbn [app] in *. rewrite Q.
    destruct (jvalue_facts _ _ _ _ _ (lt_pos _ _ D) F) as (_ & _ & _ & M). cbn [app] in *. rewrite M by lia.
    unfold next. cbn [skip_ws json_ws]. rewrite beqb_refl.
    destruct (reads g) as (_ & _ & RE). destruct (RE _ _ _ _ (lt_pos _ _ D) G) as (_ & _ & _ & _ & M2).
    rewrite M2 by lia. reflexivity.
Qed.

Lemma whole_read j : read_whole j.
Proof.
  induction j as [|[]|n|s|l IH|fs IH|] using json_ind'; intros k d r W D En; try discriminate;
    try (exists 1; reflexivity).
  - exists 1. cbn [jprint wrote fst jvalue]. pose proof (jprint_skip (JNum n) k r) as P. cbn [jprint wrote fst] in P. rewrite P.
    destruct (ProofRound6.dec_facts n) as [Dg Ne]. rewrite <- (jnumber_dec n r En). destruct (dec n) as [|b q]; [congruence|]. cbn [app].
    inversion Dg as [|? ? Hb]; subst. assert (beqb b x7b = false /\ beqb b x5b = false /\ beqb b x22 = false) as (-> & -> & ->)
      by (destruct b; try discriminate Hb; auto).
    now rewrite Hb.
  - exists 1. cbn [jprint wrote fst jvalue]. rewrite jquote_app. cbn [skip_ws json_ws beqb]. change (beqb x22 x7b) with false.
    change (beqb x22 x5b) with false. change (beqb x22 x22) with true. cbv iota. now rewrite jstring_quoted.
  - destruct l as [|x l].
    { exists 1. cbn in D. destruct d as [|[|d]]; try lia. reflexivity. }
    cbn [whole] in W. assert (D' : fold_right (fun x n => Nat.max (jdepth x) n) 0 (x :: l) < d - 1) by (cbn [jdepth] in D; lia).
    destruct (items_read _ IH ltac:(discriminate) k (d - 1) r W D') as [f F]. exists (S f).
    rewrite jprint_arr, fst_andthen by reflexivity. rewrite fst_andthen by (now apply jitems_ok). cbn [wrote fst].
    change (bs "[") with [x5b]. cbn [app]. cbn [jvalue skip_ws json_ws]. change (beqb x5b x7b) with false. rewrite beqb_refl. cbv iota.
    assert (enter d = Some (d - 1)) as -> by (destruct d as [|[|d]]; cbn in *; try lia; f_equal; lia).
    assert (next x5d ((fst (jitems k [] (x :: l)) ++ x0a :: indent k ++ [x5d]) ++ r) = None) as ->.
    { cbn [forallb] in W. apply andb_true_iff in W as [W _]. rewrite jitems_cons by auto. rewrite <- !app_assoc.
      unfold next. cbn [app skip_ws json_ws]. rewrite skip_ws_indent, jprint_skip.
      change ([x2c]) with [x2c]. destruct (jprint_head x (S k)) as (b & q & -> & _ & N & _). cbn [app].
      apply beqb_neq in N. now rewrite N. }
    rewrite <- app_assoc. cbn [app] in F. cbn [app]. rewrite F. reflexivity.
  - destruct fs as [|x l].
    { exists 1. cbn in D. destruct d as [|[|d]]; try lia. reflexivity. }
    cbn [whole] in W. assert (D' : fold_right (fun kv n => Nat.max (jdepth (snd kv)) n) 0 (x :: l) < d - 1) by (cbn [jdepth] in D; lia).
    destruct (fields_read _ IH ltac:(discriminate) k (d - 1) r W D') as [f F]. exists (S f).
    rewrite jprint_obj, fst_andthen by reflexivity. rewrite fst_andthen by (now apply jfields_ok). cbn [wrote fst].
    change (bs "{") with [x7b]. cbn [app]. cbn [jvalue skip_ws json_ws]. rewrite beqb_refl.
    assert (enter d = Some (d - 1)) as -> by (destruct d as [|[|d]]; cbn in *; try lia; f_equal; lia).
    assert (next x7d ((fst (jfields k [] (x :: l)) ++ x0a :: indent k ++ [x7d]) ++ r) = None) as ->.
    { destruct x as [n x]. cbn [forallb snd] in W. apply andb_true_iff in W as [W _]. rewrite jfields_cons by auto. rewrite <- !app_assoc.
      unfold next. cbn [app skip_ws json_ws]. rewrite skip_ws_indent, jquote_app. reflexivity. }
    rewrite <- app_assoc. cbn [app] in F. cbn [app]. rewrite F. reflexivity.
Qed.

(** ** The beginning of what is written *)

(** The object that was begun is closed again. *)
Fixpoint fill (j : json) : json :=
  match j with
  | JArr l => JArr (map fill l)
  | JObj fs => JObj (map (fun kv => (fst kv, fill (snd kv))) fs)
  | JStop => JObj []
  | _ => j
  end.
Lemma fill_whole j : whole (fill j) = true.
Proof.
  induction j as [|[]|n|s|l IH|fs IH|] using json_ind'; try reflexivity; cbn [fill whole].
  - induction IH; cbn [map forallb]; auto. now rewrite H.
  - induction IH as [|[k x] fs H _ IH']; cbn [map forallb fst snd] in *; auto. now rewrite H.
Qed.
Lemma fill_same j : whole j = true -> fill j = j.
Proof.
  induction j as [|[]|n|s|l IH|fs IH|] using json_ind'; try reflexivity; try discriminate; cbn [fill whole]; intro W; f_equal.
  - induction IH; cbn [map forallb] in *; auto. apply andb_true_iff in W as [W1 W2]. rewrite H, IHIH; auto.
  - induction IH as [|[k x] fs H _ IH']; cbn [map forallb fst snd] in *; auto. apply andb_true_iff in W as [W1 W2]. rewrite H, IH'; auto.
Qed.

(** [a] is what [b] begins with; all of it if [a] was completed. *)
Definition begins (a b : str * bool) : Prop :=
  if snd a then a = b else snd b = true /\ exists m, m <> [] /\ fst b = fst a ++ m.
Lemma begins_then a b a' b' : begins a a' -> begins b b' -> snd b' = true -> begins (andthen a b) (andthen a' b').
Proof.
  unfold begins. intros A B S. rewrite andthen_snd. destruct (snd a) eqn:Ea.
  - subst a'. cbn [andb]. rewrite !andthen_ok by auto. destruct (snd b) eqn:Eb.
    + subst b'. now rewrite Eb.
    + destruct B as [_ (m & Ne & E)]. cbn [fst snd]. split; auto. exists m. split; auto. now rewrite E, app_assoc.
  - destruct A as [Sa (m & Ne & E)]. cbn [andb].
    assert (andthen a b = a) as -> by (unfold andthen; now rewrite Ea).
    rewrite andthen_ok by auto. cbn [fst snd]. split; auto. exists (m ++ fst b'). rewrite E, app_assoc. split; auto.
    intro K. apply app_eq_nil in K. tauto.
Qed.
Lemma begins_refl s : begins (wrote s) (wrote s).
Proof. reflexivity. Qed.

Lemma fill_begins j : forall k, begins (jprint k j) (jprint k (fill j)).
Proof.
  induction j as [|[]|n|s|l IH|fs IH|] using json_ind'; intro k; try apply begins_refl.
  - destruct l as [|x l]; [apply begins_refl|]. pose proof (fill_whole (JArr (x :: l))) as W. cbn [fill map whole] in *. rewrite !jprint_arr.
    change (fill x :: map fill l) with (map fill (x :: l)) in *.
    apply begins_then; [apply begins_refl| |].
    + apply begins_then; [|apply begins_refl|reflexivity].
      generalize (@nil byte). generalize dependent (x :: l). clear x l. intros l IH W.
      induction IH as [|y l Hy H IHl]; intro sep; [apply begins_refl|]. cbn [map jitems forallb] in *.
      apply andb_true_iff in W as [Wy W].
      apply begins_then; [apply begins_refl| |].
      * apply begins_then; auto. now apply jitems_ok.
      * rewrite andthen_snd, jprint_whole, Wy, jitems_ok by auto. reflexivity.
    + rewrite andthen_snd, jitems_ok by auto. reflexivity.
  - destruct fs as [|x l]; [apply begins_refl|]. pose proof (fill_whole (JObj (x :: l))) as W. cbn [fill map whole] in *. rewrite !jprint_obj.
    change ((fst x, fill (snd x)) :: map (fun kv => (fst kv, fill (snd kv))) l) with (map (fun kv => (fst kv, fill (snd kv))) (x :: l)) in *.
    apply begins_then; [apply begins_refl| |].
    + apply begins_then; [|apply begins_refl|reflexivity].
      generalize (@nil byte). generalize dependent (x :: l). clear x l. intros l IH W.
      induction IH as [|[n y] l Hy H IHl]; intro sep; [apply begins_refl|]. cbn [map jfields forallb fst snd] in *.
      apply andb_true_iff in W as [Wy W].
      apply begins_then; [apply begins_refl| |].
      * apply begins_then; auto. now apply jfields_ok.
      * rewrite andthen_snd, jprint_whole, Wy, jfields_ok by auto. reflexivity.
    + rewrite andthen_snd, jfields_ok by auto. reflexivity.
  - unfold begins. cbn. split; auto. exists [x7d]. split; [discriminate|reflexivity].
Qed.

(** ** Files *)

Lemma jread_whole j : whole j = true -> jdepth j < 128 -> jread (fst (jprint 0 j)) = Some j.
Proof.
  intros W D. destruct (whole_read j 0 128 [] W D) as [f F]. { destruct j; cbn; auto. }
  rewrite app_nil_r in F. unfold jread. rewrite <- (jread_fuel _ _ (Nat.max f (2 * S (length (fst (jprint 0 j))))));
    [|apply Nat.lt_0_succ|apply Nat.le_max_r].
  assert (P : 0 < 128) by apply Nat.lt_0_succ.
  destruct (jvalue_facts _ _ _ _ _ P F) as (_ & _ & _ & M). rewrite M by (auto; apply Nat.le_max_l). reflexivity.
Qed.
Lemma jread_depth s j : jread s = Some j -> jdepth j < 128.
Proof.
  unfold jread. destruct (jvalue _ 128 s) as [[x r]|] eqn:E; [|discriminate]. intro H.
  assert (x = j) as <- by (destruct (skip_ws r); congruence).
  assert (P : 0 < 128) by apply Nat.lt_0_succ. now destruct (jvalue_facts _ _ _ _ _ P E) as (_ & D & _).
Qed.

(** No proper beginning of the text of an object is read. *)
Lemma obj_head k fs : exists q, fst (jprint k (JObj fs)) = x7b :: q.
Proof. destruct fs as [|x l]; [eexists; reflexivity|]. rewrite jprint_obj, andthen_ok by reflexivity. eexists. reflexivity. Qed.
Lemma jread_begin fs i x : let j := JObj fs in jread (firstn i (fst (jprint 0 j))) = Some x ->
  whole j = true /\ x = j /\ length (fst (jprint 0 j)) <= i.
Proof.
  intros j H. set (t := firstn i (fst (jprint 0 j))) in *.
  assert (B := fill_begins j 0). assert (W := fill_whole j).
  assert (T : exists m, fst (jprint 0 (fill j)) = t ++ m /\ (m = [] -> whole j = true /\ length (fst (jprint 0 j)) <= i)).
  { unfold begins in B. rewrite jprint_whole in B. destruct (whole j) eqn:Wj.
    - rewrite <- B. exists (skipn i (fst (jprint 0 j))). split; [symmetry; apply firstn_skipn|].
      intro K. split; auto. assert (L := skipn_length i (fst (jprint 0 j))). rewrite K in L. cbn [length] in L. lia.
    - destruct B as [_ (m & Ne & E)]. exists (skipn i (fst (jprint 0 j)) ++ m). split.
      + rewrite E. subst t. now rewrite app_assoc, firstn_skipn.
      + intro K. apply app_eq_nil in K. tauto. }
  destruct T as (m & T & C).
  unfold jread in H. destruct (jvalue _ 128 t) as [[y r]|] eqn:E; [|discriminate].
  assert (y = x) as -> by (destruct (skip_ws r); congruence).
  assert (P : 0 < 128) by apply Nat.lt_0_succ.
  destruct (jvalue_facts _ _ _ _ _ P E) as (_ & _ & Ext & Up).
  destruct (whole_read (fill j) 0 (S (jdepth (fill j))) [] W (Nat.lt_succ_diag_r _)) as [f F]. { destruct (fill j); cbn; auto. }
  rewrite app_nil_r, T in F.
  set (g := Nat.max f (2 * S (length t))). set (d := Nat.max 128 (S (jdepth (fill j)))).
  assert (F' : jvalue g d (t ++ m) = Some (fill j, [])).
  { destruct (jvalue_facts _ _ _ _ _ (Nat.lt_0_succ _) F) as (_ & _ & _ & M). apply M; subst g d; [apply Nat.le_max_l|apply Nat.le_max_r]. }
  assert (E' : jvalue g d t = Some (x, r)) by (apply Up; subst g d; [apply Nat.le_max_r|apply Nat.le_max_l]).
  assert (D : 0 < d) by (apply (Nat.lt_le_trans _ 128); [exact P|apply Nat.le_max_l]).
  destruct (jvalue_facts _ _ _ _ _ D E') as (_ & _ & Ext' & _).
  assert (R : r ++ m = [] /\ x = fill j).
  { destruct x; try (rewrite Ext' in F' by exact I; apply Some_pair in F'; tauto).
    exfalso. destruct (obj_head 0 (map (fun kv => (fst kv, fill (snd kv))) fs)) as [q Q].
    change (fst (jprint 0 (fill j)) = x7b :: q) in Q. rewrite T in Q.
    destruct t as [|c t]; [destruct g; discriminate|]. cbn [app] in Q. injection Q as -> _.
    destruct g; [discriminate|]. cbn [jvalue skip_ws json_ws] in E'. rewrite beqb_refl in E'.
    destruct (enter d); [|discriminate]. destruct (next x7d t); [discriminate|].
    destruct (jmembers g n0 t) as [[]|]; discriminate. }
  destruct R as [R ->]. apply app_eq_nil in R as [-> ->]. destruct (C eq_refl) as [Wj L].
  split; auto. split; auto. now apply fill_same.
Qed.
