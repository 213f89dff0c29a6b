(** A carriage return and a newline at the end of a text. *)
From Verif Require Import Base ModelSpan ModelComb ModelAst SpecSpan SpecEq SpecEnd SpecLines.

Lemma unix_after t x : (forall y, t <> y ++ [b_cr]) -> unix (t ++ x) = unix t ++ unix x.
Proof.
  induction t as [|b t IH]; intro N; [reflexivity|].
  assert (N' : forall y, t <> y ++ [b_cr]) by (intros y ->; exact (N (b :: y) eq_refl)).
  cbn [app unix]. rewrite (IH N'). destruct (beqb b b_cr) eqn:B; [|reflexivity]. apply beqb_eq in B. subst b.
  destruct t as [|c t]; [destruct (N [] eq_refl)|]. cbn [app andb].
  replace (starts_with [b_nl] (c :: t ++ x)) with (starts_with [b_nl] (c :: t)) by (unfold starts_with; cbn; reflexivity).
  now destruct (starts_with _ _).
Qed.
Lemma same_end t : unended t -> ~ In b_cr (unix t) -> same_lines (t ++ [b_nl]) (t ++ [b_cr; b_nl]).
Proof.
  intros U N. assert (M : forall y, t <> y ++ [b_cr]) by (intros y E; destruct (U _ _ E) as [_ H]; now apply H).
  split; rewrite !unix_after by exact M; [reflexivity|]. intro I. apply in_app_iff in I as [I|[I|[]]]; [now apply N|discriminate].
Qed.
