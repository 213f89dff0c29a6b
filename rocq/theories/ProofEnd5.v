(** A page with and without a newline at its end. *)
From Verif Require Import Base ModelAst ModelTable ModelLink ModelInline ModelBlock ModelSpan ModelComb
  SpecDoc SpecTree SpecSpan SpecEq SpecEnd ProofBase ProofBytes ProofSpan ProofClaims ProofClaims2 ProofEnd2 ProofEnd3 ProofEnd4.
From Verif Require ProofMove5.

Section Page.
Variable up : str -> option uri.
Variable dp : str -> option date.
Local Notation maybe := (maybe_block_element up dp).

Lemma sim_start {E : tailed} : sim true (span_of bod) (span_of (bod ++ [b_nl])).
Proof. unfold sim, span_of. cbn [sp_inner sp_start sp_end sp_depth]. rewrite app_length. cbn [length]. repeat split; auto; lia. Qed.
Lemma covered_in input : forall p lo, page_covered input lo p -> lo <= length input /\ Forall (fun x => r_off (l_reg x) < length input) p.
Proof.
  induction p as [|x p IH]; intros lo H; [split; [apply H|constructor]|]. destruct H as (L & _ & _ & P & H). destruct (IH _ H) as [K F].
  split; [lia|]. constructor; [lia|exact F].
Qed.
Lemma alike {E : tailed} l l' : Forall2 (RL Rb) l l' -> Forall (fun x => r_off (l_reg x) < length bod) l ->
  full_content_of (fun u => u) l = full_content_of (fun u => u) l' /\ map (fun x => r_off (l_reg x)) l = map (fun x => r_off (l_reg x)) l'.
Proof.
  intros H F. split.
  - unfold full_content_of, n_page. eapply F2_map; [exact H|]. intros. now apply RL_loc.
  - revert F. induction H as [|x x' l l' [_ Hx] H IH]; intro F; [reflexivity|]. inversion F; subst. cbn [map]. f_equal; [|now apply IH].
    destruct Hx as [->|[Hx _]]; [reflexivity|lia].
Qed.
Lemma ended x b : b <> b_nl -> b <> b_cr ->
  match parse_page up dp (x ++ [b]), parse_page up dp ((x ++ [b]) ++ [b_nl]) with
  | Ok _ p, Ok _ q => full_content_of (fun u => u) p = full_content_of (fun u => u) q /\ map (fun y => r_off (l_reg y)) p = map (fun y => r_off (l_reg y)) q
  | Panic, Panic => True
  | _, _ => False
  end.
Proof.
  intros B1 B2. set (t := x ++ [b]).
  pose (E := {| bod := t; bod_last := ex_intro _ x (ex_intro _ b (conj eq_refl (conj B1 B2))) |}).
  pose proof (claim_terminates up dp t) as T. pose proof (claim_not_err up dp t) as N.
  pose proof (claim_terminates up dp (t ++ [b_nl])) as T'. pose proof (claim_not_err up dp (t ++ [b_nl])) as N'.
  assert (CV : forall r p, parse_page up dp t = Ok r p -> Forall (fun y => r_off (l_reg y) < length t) p).
  { intros r p H. apply (covered_in t p 0). exact (claim_covered up dp t r p H). }
  rewrite ProofMove5.parse_of in *. rewrite (ProofMove5.parse_of up dp (t ++ [b_nl])) in *.
  pose proof (@rel_many0 E _ (opt_rel (RL Rb)) true _ _ (stuck_maybe up dp) (simp_maybe up dp true)
    (S (remaining_len (span_of t))) (S (remaining_len (span_of (t ++ [b_nl])))) _ _ (@sim_start E)) as R. cbn [bod E] in R.
  destruct (many0_fuel _ maybe (span_of t)) as [s l| | |]; [|tauto| |tauto].
  - destruct (Nat.eqb_spec (remaining_len s) 0) as [Z|]; [|tauto].
    destruct (many0_fuel _ maybe (span_of (t ++ [b_nl]))) as [s' l'| | |]; [|tauto|contradiction|tauto].
    destruct (Nat.eqb_spec (remaining_len s') 0) as [Z'|]; [|tauto]. destruct R as [_ R]. apply flat_rel in R.
    exact (@alike E _ _ R (CV _ _ eq_refl)).
  - destruct (many0_fuel _ maybe (span_of (t ++ [b_nl]))) as [s' l'| | |]; try contradiction; tauto.
Qed.
Lemma newline_alike t : unended t ->
  match parse_page up dp t, parse_page up dp (t ++ [b_nl]) with
  | Ok _ p, Ok _ q => full_content_of (fun u => u) p = full_content_of (fun u => u) q /\ map (fun y => r_off (l_reg y)) p = map (fun y => r_off (l_reg y)) q
  | Panic, Panic => True
  | _, _ => False
  end.
Proof.
  intro U. destruct (rev t) as [|b x] eqn:R.
  - apply (f_equal (@rev byte)) in R. rewrite rev_involutive in R. subst t. vm_compute. auto.
  - apply (f_equal (@rev byte)) in R. rewrite rev_involutive in R. cbn [rev] in R. destruct (U _ _ R). subst t. now apply ended.
Qed.
End Page.
