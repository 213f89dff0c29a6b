(** The report of the timekeeper (C101). *)
From Coq Require Import Permutation.
From Verif Require Import Base ModelElem ModelTime SpecTime ProofTime.

(** * C101 *)

(** The table tells how often each parser returned while the timekeeper was on
    and how long these calls took together: nested calls count for themselves
    and in the time of the outer call, calls that panicked do not count. *)
Theorem C101_table cs t : tells (flat_map returned cs) (k_table (run_calls (enable keeper0) cs)) /\
  run_calls (Keeper false t) cs = Keeper false t.
Proof.
  split; [apply (runs_tell cs (enable keeper0) []); [reflexivity|exact tells_nil]|]. rewrite runs_step. reflexivity.
Qed.
Print Assumptions C101_table.
Definition a_text : call := Call (bs "Text") 7 true [].
Definition a_page : call :=
  Call (bs "Page") 100 true [Call (bs "Header") 40 true [a_text; a_text]; Call (bs "Table") 20 false [a_text]; a_text].
Example C101_table_case : k_table (run_calls (enable keeper0) [a_page; a_page]) =
    [(bs "Text", (8, 56%N)); (bs "Header", (2, 80%N)); (bs "Page", (2, 200%N))] /\
  times (bs "Text") (flat_map returned [a_page; a_page]) = 8 /\ total (bs "Text") (flat_map returned [a_page; a_page]) = 56%N.
Proof. repeat split; vm_compute; reflexivity. Qed.

(** In whatever order calls of several threads are recorded, the entries are
    the same. *)
Theorem C101_threads cs ds : Permutation (flat_map returned cs) (flat_map returned ds) ->
  Permutation (k_table (run_calls (enable keeper0) cs)) (k_table (run_calls (enable keeper0) ds)).
Proof. intro P. exact (tells_perm _ _ _ _ P (proj1 (C101_table cs [])) (proj1 (C101_table ds []))). Qed.
Print Assumptions C101_threads.
Example C101_threads_case : Permutation (flat_map returned [Call (bs "Page") 9 true []; a_text]) (flat_map returned [a_text; Call (bs "Page") 9 true []]) /\
  k_table (run_calls (enable keeper0) [Call (bs "Page") 9 true []; a_text]) <> k_table (run_calls (enable keeper0) [a_text; Call (bs "Page") 9 true []]).
Proof. split; [apply perm_swap|vm_compute; discriminate]. Qed.

(** The report has one entry for each parser that returned, with the number of
    its calls and their time; no entry stands before one with a larger
    average.  There is a report for every table. *)
Theorem C101_report avg cs l : listed avg (k_table (run_calls (enable keeper0) cs)) l ->
  tells (flat_map returned cs) l /\
  forall x y a b, l = x ++ y -> In a x -> In b y -> (avg (snd (snd b)) (fst (snd b)) <= avg (snd (snd a)) (fst (snd a)))%N.
Proof.
  intro L. split; [exact (tells_same _ _ _ (proj1 (C101_table cs [])) (listed_perm avg _ _ L))|].
  intros x y a b S Ia Ib. exact (listed_falls avg _ _ x y L S a b Ia Ib).
Qed.
Print Assumptions C101_report.
Theorem C101_report_exists avg t : exists l, listed avg t l.
Proof. exact (listed_exists avg t). Qed.
Print Assumptions C101_report_exists.
Definition mean (x : N) (n : nat) : N := (x / N.of_nat n)%N.
Example C101_report_case : listed mean (k_table (run_calls (enable keeper0) [a_page]))
  [(bs "Page", (1, 100%N)); (bs "Header", (1, 40%N)); (bs "Text", (4, 28%N))].
Proof.
  exists [(bs "Text", (4, 28%N)); (bs "Header", (1, 40%N)); (bs "Page", (1, 100%N))].
  split; [vm_compute; apply Permutation_refl|]. split; [|reflexivity]. repeat split; vm_compute; discriminate.
Qed.

(** Times are written in the largest of the units s, ms, microseconds and ns
    that is not longer than the time, below a microsecond exactly. *)
Definition units : list (nat * str) := [(0, bs "ns"); (3, [xce; xbc] ++ bs "s"); (6, bs "ms"); (9, bs "s")].
Theorem C101_units scaled x : exists e u, In (e, u) units /\
  time_to_str scaled x = (match e with 0 => dec x | _ => scaled x e end) ++ u /\ (e = 0 \/ (10 ^ N.of_nat e <= x)%N) /\
  forall f v, In (f, v) units -> e < f -> (x < 10 ^ N.of_nat f)%N.
Proof.
  unfold time_to_str. assert (X : forall e f, e <= f -> (10 ^ N.of_nat e <= 10 ^ N.of_nat f)%N) by (intros; apply N.pow_le_mono_r; lia).
  change (10 ^ 9)%N with (10 ^ N.of_nat 9)%N. change (10 ^ 6)%N with (10 ^ N.of_nat 6)%N. change (10 ^ 3)%N with (10 ^ N.of_nat 3)%N.
  destruct (N.leb_spec (10 ^ N.of_nat 9) x) as [L9|L9]; [exists 9, (bs "s")|
  destruct (N.leb_spec (10 ^ N.of_nat 6) x) as [L6|L6]; [exists 6, (bs "ms")|
  destruct (N.leb_spec (10 ^ N.of_nat 3) x) as [L3|L3]; [exists 3, ([xce; xbc] ++ bs "s")|exists 0, (bs "ns")]]];
  (split; [cbn [units In]; tauto|split; [reflexivity|split; [first [now left|right; assumption]|]]]);
  intros f v [F|[F|[F|[F|[]]]]] G; injection F as <- <-; first [lia|assumption].
Qed.
Print Assumptions C101_units.
Example C101_units_case : time_to_str (fun x e => dec (x / 10 ^ N.of_nat e)) 2500000 = bs "2ms" /\
  time_to_str (fun x e => dec (x / 10 ^ N.of_nat e)) 999 = bs "999ns".
Proof. split; vm_compute; reflexivity. Qed.

(** The report as it is printed. *)
Example C101_text_case : report_text mean (fun x e => dec (x / 10 ^ N.of_nat e)) [(bs "Page", (2, 4000%N)); (bs "Text", (4, 28%N))] =
  bs "====== TIMEKEEPER REPORT ======" ++ [b_nl; b_nl] ++
  bs "- Page: (2 calls, total 4" ++ [xce; xbc] ++ bs "s, average 2" ++ [xce; xbc] ++ bs "s)" ++ [b_nl] ++
  bs "- Text: (4 calls, total 28ns, average 7ns)" ++ [b_nl] ++ [b_nl] ++ bs "===============================" ++ [b_nl].
Proof. vm_compute. reflexivity. Qed.

(** The claim for the command line program: whatever was run before in the
    same process, the report of a run tells the calls of that run.  It is false:
    a run that fails to load its wikis leaves its calls in the table and the
    timekeeper on. *)
Fixpoint after (rs : list (bool * progress)) (k : keeper) : keeper :=
  match rs with [] => k | (flag, p) :: rs' => after rs' (fst (cli_run flag p k)) end.
Theorem C101_runs_refuted : exists rs cs t, snd (cli_run true (Runs cs) (after rs keeper0)) = Some t /\ ~ tells (flat_map returned cs) t.
Proof.
  exists [(true, LoadFails [a_text]); (false, Runs [a_text])], [a_text]. eexists. split; [vm_compute; reflexivity|].
  intros [_ H]. specialize (H (bs "Text") 3 21%N). destruct H as [H _]. specialize (H (or_introl eq_refl)). destruct H as (_ & H & _). vm_compute in H. discriminate.
Qed.
Print Assumptions C101_runs_refuted.
(** It holds when every earlier run with the option got past loading. *)
Theorem C101_runs_partial rs cs t : (forall p, In (true, p) rs -> exists ds, p = Runs ds) ->
  snd (cli_run true (Runs cs) (after rs keeper0)) = Some t -> tells (flat_map returned cs) t.
Proof.
  intro H. assert (A : after rs keeper0 = keeper0).
  { induction rs as [|[[|] p] rs IH]; [reflexivity| |]; cbn [after].
    - destruct (H p (or_introl eq_refl)) as [ds ->]. replace (fst (cli_run true (Runs ds) keeper0)) with keeper0 by reflexivity. apply IH. intros q I. apply H. now right.
    - replace (fst (cli_run false p keeper0)) with keeper0; [apply IH; intros q I; apply H; now right|].
      destruct p as [ds|ds]; cbn [cli_run fst]; symmetry; exact (proj2 (C101_table ds [])). }
  rewrite A. cbn [cli_run snd]. intros [= <-]. exact (proj1 (C101_table cs [])).
Qed.
Print Assumptions C101_runs_partial.
Example C101_runs_case : snd (cli_run true (Runs [a_text]) (after [(true, Runs [a_page]); (false, LoadFails [a_page])] keeper0)) = Some [(bs "Text", (1, 7%N))].
Proof. vm_compute. reflexivity. Qed.
