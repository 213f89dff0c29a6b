(** Dates across the JavaScript boundary. *)
From Verif Require Import Base ModelSpan ModelComb ModelAst ModelTable ModelLink ModelElem ModelJson ModelWasm SpecWasm.
From Coq Require Import ZArith Lia.
Local Open Scope Z_scope.

Lemma leap_iff y : js_leap y = true <-> leap_year y.
Proof.
  unfold js_leap, leap_year. rewrite andb_true_iff, orb_true_iff, negb_true_iff.
  rewrite !Z.eqb_eq, Z.eqb_neq, <- !Z.mod_divide by lia. reflexivity.
Qed.
Lemma leap_not y : js_leap y = false <-> ~ leap_year y.
Proof. rewrite <- leap_iff. destruct (js_leap y); split; intro H; [discriminate|destruct (H eq_refl)|discriminate|reflexivity]. Qed.
Lemma year_step y : js_year (y + 1) = js_year y + 365 + (if js_leap y then 1 else 0).
Proof.
  unfold js_year.
  assert (H : js_leap y = ((y mod 4 =? 0) && (negb (y mod 100 =? 0) || (y mod 400 =? 0)))%bool) by reflexivity. rewrite H. clear H.
  destruct (Z.eqb_spec (y mod 4) 0); destruct (Z.eqb_spec (y mod 100) 0); destruct (Z.eqb_spec (y mod 400) 0); cbn [andb orb negb];
    Z.div_mod_to_equations; lia.
Qed.
Definition number (d : date) : Z := make_day (d_year d) (Z.of_nat (d_month d) - 1) (Z.of_nat (d_day d)).

Lemma month_cases y m k : month_length y m k -> (1 <= m <= 12)%nat.
Proof. destruct 1 as [m I|m I| |]; cbn [In] in *; lia. Qed.
Ltac ground t := let v := eval compute in t in progress change t with v.
Ltac literals := repeat (match goal with
  | |- context [Z.of_nat ?n] => ground (Z.of_nat n)
  | |- context [?a / 12] => ground (a / 12)
  | |- context [?a mod 12] => ground (a mod 12)
  end).
(** One month further is the length of the month further. *)
Lemma month_step y m k d : month_length y m k -> make_day y (Z.of_nat m) d = make_day y (Z.of_nat m - 1) d + Z.of_nat k.
Proof.
  intro H. unfold make_day. cbv zeta.
  destruct H as [m I|m I|L|L]; [cbn [In] in I|cbn [In] in I|apply leap_iff in L|apply leap_not in L].
  - destruct I as [<-|[<-|[<-|[<-|[<-|[<-|[<-|[]]]]]]]]; literals; rewrite ?Z.add_0_r, ?year_step; cbn [js_before]; destruct (js_leap y); lia.
  - destruct I as [<-|[<-|[<-|[<-|[]]]]]; literals; rewrite ?Z.add_0_r; cbn [js_before]; destruct (js_leap y); lia.
  - literals. rewrite ?Z.add_0_r. cbn [js_before]. rewrite L. lia.
  - literals. rewrite ?Z.add_0_r. cbn [js_before]. rewrite L. lia.
Qed.
Lemma day_step y m a b : make_day y m b = make_day y m a + (b - a).
Proof. unfold make_day. lia. Qed.
Lemma next_step a b : next_day a b -> number b = number a + 1.
Proof.
  destruct 1 as [y m d k M L|y m k M L|y]; unfold number; cbn [d_year d_month d_day].
  - rewrite (day_step _ _ (Z.of_nat d)). lia.
  - replace (Z.of_nat (S m) - 1) with (Z.of_nat m) by lia. rewrite (month_step y m k _ M), (day_step _ _ (Z.of_nat k)). lia.
  - pose proof (month_step y 12 31 1 (ml_31 y 12 ltac:(cbn; auto 10))) as E. unfold make_day in *. cbv zeta in *. revert E. literals.
    rewrite ?Z.add_0_r. cbn [js_before]. lia.
Qed.
Lemma day_number_number d n : day_number d n -> n = number d.
Proof.
  induction 1 as [|a b n _ IH N|a b n _ IH N]; [reflexivity| |]; apply next_step in N; lia.
Qed.
Lemma year_bound y : 100 <= y <= 200000 -> -700000 <= js_year y <= 80000000.
Proof. unfold js_year. intro. Z.div_mod_to_equations. lia. Qed.
Lemma before_bound y m : 0 <= js_before y m <= 335.
Proof. unfold js_before. destruct (js_leap y); destruct m as [|p|p]; try lia; repeat (destruct p as [p|p|]; try lia). Qed.

Lemma js_date_late d n k : day_number d n -> real_date d -> month_length (d_year d) (d_month d) k -> 100 <= d_year d < 200000 ->
  placeholder_js_date (PDate d) = Some (Some (n + Z.of_nat k)).
Proof.
  intros D (k' & M' & L) M Y. apply day_number_number in D. subst n. unfold placeholder_js_date, js_new_date.
  rewrite Z.mod_small by lia. replace ((0 <=? d_year d) && (d_year d <=? 99))%bool with false
    by (symmetry; apply andb_false_iff; right; apply Z.leb_gt; lia).
  rewrite (month_step _ _ _ _ M). cbv zeta. fold (number d).
  assert (B : Z.abs (number d + Z.of_nat k) <= 100000000).
  { assert (K : (k <= 31)%nat) by (destruct M; lia). assert (K' : (k' <= 31)%nat) by (destruct M'; lia). pose proof (month_cases _ _ _ M).
    unfold number, make_day. cbv zeta. replace ((Z.of_nat (d_month d) - 1) / 12) with 0 by (Z.div_mod_to_equations; lia).
    rewrite Z.add_0_r. pose proof (year_bound (d_year d) ltac:(lia)). pose proof (before_bound (d_year d) ((Z.of_nat (d_month d) - 1) mod 12)). lia. }
  apply Z.leb_le in B. rewrite B. reflexivity.
Qed.

(** * From JavaScript to chrono *)

Lemma naive_days y m k : month_length y m k -> naive_month_days y m = k.
Proof.
  destruct 1 as [m I|m I|L|L]; [cbn [In] in I; repeat (destruct I as [<-|I]; [reflexivity|]); destruct I..| |].
  - apply leap_iff in L. cbn. now rewrite L.
  - apply leap_not in L. cbn. now rewrite L.
Qed.
Lemma month_exists y m : (1 <= m <= 12)%nat -> exists k, month_length y m k /\ (28 <= k)%nat.
Proof.
  intro H. destruct (js_leap y) eqn:L; [apply leap_iff in L|apply leap_not in L].
  all: do 13 (destruct m as [|m]; [first [exfalso; lia|eexists; split; [first [apply ml_31; cbn; tauto|apply ml_30; cbn; tauto|apply ml_29; exact L|apply ml_28; exact L]|lia]]|]); lia.
Qed.
Lemma diary_given y m d : 0 <= y <= 262143 -> real_date (Date y m d) ->
  (diary_link_date y (m - 1) d = None <-> m = 1%nat \/ forall k, month_length y (m - 1) k -> (k < d)%nat) /\
  (forall r, diary_link_date y (m - 1) d = Some r -> r = Date y (m - 1) d /\ real_date r).
Proof.
  intros Y (k & M & L). cbn [d_year d_month d_day] in *. unfold diary_link_date, naive_from_ymd.
  assert (B : ((-262144 <=? y) && (y <=? 262143) && (1 <=? d)%nat)%bool = true).
  { rewrite !andb_true_iff. repeat split; [apply Z.leb_le; lia..|apply Nat.leb_le; lia]. }
  rewrite B. cbn [andb]. pose proof (month_cases _ _ _ M) as C. split.
  - destruct (Nat.eq_dec m 1) as [->|N1].
    + change (naive_month_days y (1 - 1)) with 0%nat. split; [auto|]. intros _. destruct d; [lia|reflexivity].
    + destruct (month_exists y (m - 1) ltac:(lia)) as (k' & M' & _). rewrite (naive_days _ _ _ M').
      destruct (Nat.leb_spec d k'); split; try discriminate; auto.
      * intros [E|F]; [contradiction|]. specialize (F _ M'). lia.
      * intros _. right. intros q Mq. apply naive_days in M', Mq. lia.
  - intros r. destruct (Nat.leb_spec d (naive_month_days y (m - 1))) as [K|K]; [|discriminate]. intro E. injection E as <-. split; [reflexivity|].
    destruct (Nat.eq_dec m 1) as [->|N1]; [change (naive_month_days y (1 - 1)) with 0%nat in K; lia|].
    destruct (month_exists y (m - 1) ltac:(lia)) as (k' & M' & _). rewrite (naive_days _ _ _ M') in K. exists k'. cbn. split; [exact M'|lia].
Qed.
