(** The text of an error. *)
From Verif Require Import Base ModelSpan ModelElem ModelErr SpecTree SpecSpan SpecErr ProofBase ProofSpan ProofEnv ProofElem2 ProofHtmlId.

Lemma perror_forall (P : perror -> Prop) : (forall c s, P (PError c s None)) -> (forall c s e, P e -> P (PError c s (Some e))) -> forall e, P e.
Proof. intros H1 H2. fix IH 1. intros [c s [e|]]; [apply H2, IH|apply H1]. Qed.

(** A character is one byte below 128 or several above. *)
Definition high (b : byte) : Prop := 128 <= byte_n b.
Lemma char_kind c : utf8_char c -> (exists b, c = [b]) \/ (1 < length c /\ Forall high c).
Proof.
  unfold high. destruct 1; [left; eauto|..]; right; unfold tail_byte, in_range in *; (split; [cbn; lia|]);
    repeat (apply Forall_cons; [lia|]); apply Forall_nil.
Qed.
Lemma char_some c : utf8_char c -> exists b r, c = b :: r /\ is_cont b = false /\ Forall (fun x => is_cont x = true) r.
Proof.
  intro U. assert (H : exists b r, c = b :: r) by (destruct U; eauto). destruct H as (b & r & E). exists b, r. split; [exact E|].
  split; [exact (char_head c b r U E)|]. subst c.
  assert (C : forall x lo hi, in_range x lo hi -> 128 <= lo -> hi <= 191 -> is_cont x = true).
  { intros x lo hi [A B] ? ?. unfold is_cont. apply andb_true_iff. split; [apply Nat.leb_le|apply Nat.ltb_lt]; lia. }
  inversion U; subst; unfold tail_byte in *; repeat (apply Forall_cons; [eapply C; [eassumption|lia|lia]|]); apply Forall_nil.
Qed.
Lemma nl_low : ~ high b_nl.
Proof. unfold high. vm_compute. lia. Qed.
Lemma cr_low : ~ high b_cr.
Proof. unfold high. vm_compute. lia. Qed.

Lemma conts_take n c : Forall (fun x => is_cont x = true) c -> forall l, take_chars n (c ++ l) = c ++ take_chars n l.
Proof. induction 1 as [|b c B _ IH]; intro l; [reflexivity|]. cbn [app take_chars]. now rewrite B, IH. Qed.
Lemma take_chars_char cs : Forall utf8_char cs -> forall n, take_chars n (concat cs) = concat (firstn n cs).
Proof.
  induction 1 as [|c cs U _ IH]; intro n; [now rewrite firstn_nil|]. destruct (char_some c U) as (b & r & -> & B & R). cbn [concat app take_chars].
  rewrite B. destruct n as [|n]; [reflexivity|]. cbn [firstn concat app]. now rewrite conts_take, IH.
Qed.

Lemma is_nl_eq b : is_nl b = true <-> b = b_nl.
Proof. unfold is_nl. apply beqb_eq. Qed.
Lemma high_first c : Forall high c -> forall l, first_line (c ++ l) = c ++ first_line l.
Proof.
  induction 1 as [|b c B _ IH]; intro l; [reflexivity|]. cbn [app first_line].
  assert (N : is_nl b = false) by (destruct (is_nl b) eqn:E; auto; apply is_nl_eq in E; subst; destruct (nl_low B)).
  assert (C : beqb b b_cr = false) by (destruct (beqb b b_cr) eqn:E; auto; apply beqb_eq in E; subst; destruct (cr_low B)).
  rewrite N, C. cbn [orb andb]. now rewrite IH.
Qed.
Lemma starts_nl c l : utf8_char c -> starts_with [b_nl] (c ++ l) = str_eqb c [b_nl].
Proof.
  intro U. destruct (char_kind c U) as [[b ->]|[L H]].
  - cbn [app starts_with str_eqb]. rewrite !andb_true_r. destruct (beqb_spec b_nl b), (beqb_spec b b_nl); congruence.
  - destruct c as [|b c]; [cbn in L; lia|]. inversion H as [|? ? B]; subst. cbn [app starts_with str_eqb].
    destruct (beqb_spec b_nl b) as [<-|]; [destruct (nl_low B)|]. destruct (beqb_spec b b_nl) as [->|]; [destruct (nl_low B)|reflexivity].
Qed.
Lemma first_line_char cs : Forall utf8_char cs -> first_line (concat cs) = concat (line_chars cs).
Proof.
  induction 1 as [|c cs U F IH]; [reflexivity|]. cbn [concat line_chars]. destruct (char_kind c U) as [[b ->]|[L H]].
  - cbn [app first_line str_eqb]. rewrite andb_true_r. unfold is_nl. destruct (beqb b b_nl); [reflexivity|]. cbn [orb].
    destruct F as [|d cs D F]; [cbn [concat starts_with]; now rewrite andb_false_r|]. cbn [concat]. rewrite starts_nl by exact D.
    cbn [concat] in IH. rewrite IH, andb_true_r. now destruct (beqb b b_cr && str_eqb d [b_nl]).
  - rewrite high_first, IH by exact H.
    assert (X : forall x, str_eqb c [x] = false) by (intro x; apply str_eqb_neq; intros ->; cbn in L; lia).
    rewrite X. destruct cs as [|d cs]; [reflexivity|]. now rewrite X.
Qed.

Lemma said ctx s : sound s -> says (ctx, s) (ctx ++ bs ": Line " ++ dec (N.of_nat (line s)) ++ bs ", Column " ++ dec (N.of_nat (column s)) ++ [b_nl] ++
           take_chars 100 (first_line (remaining s)) ++ [b_nl]).
Proof.
  intros (L & V & (cs & U & R)). exists (line s), (column s), cs. split; [now apply coords_start|]. split; [exact U|]. split; [exact R|].
  rewrite R, first_line_char by exact U. rewrite take_chars_char; [reflexivity|].
  clear R. assert (I : forall c, In c (line_chars cs) -> In c cs).
  { clear U. induction cs as [|c cs IH]; [auto|]. intros d. cbn [line_chars]. destruct (str_eqb c [b_nl]); [intros []|]. destruct cs as [|e cs]; [auto|].
    destruct (_ && _); [intros []|]. intros [->|H]; [now left|right; now apply IH]. }
  apply Forall_forall. intros c H. rewrite Forall_forall in U. now apply U, I.
Qed.
Lemma display_says e : Forall (fun x => sound (snd x)) (trail e) -> exists ts, Forall2 says (trail e) ts /\ display e = concat ts.
Proof.
  induction e as [c s|c s e IH] using perror_forall; cbn [trail display]; intro H; inversion H as [|? ? S T]; subst.
  - eexists [_]. split; [constructor; [exact (said c s S)|constructor]|]. cbn [concat]. now rewrite !app_nil_r.
  - destruct (IH T) as (ts & F & E). eexists (_ :: ts). split; [constructor; [exact (said c s S)|exact F]|]. cbn [concat].
    rewrite <- E. now rewrite <- !app_assoc.
Qed.

(** Its lines. *)
Lemma newlines_app l m : newlines (l ++ m) = newlines l + newlines m.
Proof. induction l as [|b l IH]; [reflexivity|]. cbn [app newlines]. rewrite IH. lia. Qed.
Lemma newlines_none l : ~ In b_nl l -> newlines l = 0.
Proof.
  induction l as [|b l IH]; intro N; [reflexivity|]. cbn [newlines]. destruct (is_nl b) eqn:E; [apply is_nl_eq in E; destruct N; now left|].
  apply IH. intro I. apply N. now right.
Qed.
Lemma dec_no_nl n : ~ In b_nl (dec n).
Proof. intro H. assert (D := uint_str_digits (N.to_uint n)). rewrite Forall_forall in D. specialize (D _ H). discriminate. Qed.
Lemma first_no_nl l : ~ In b_nl (first_line l).
Proof.
  induction l as [|b l IH]; [intros []|]. cbn [first_line]. destruct (is_nl b) eqn:E; [intros []|]. cbn [orb]. destruct (_ && _); [intros []|].
  intros [->|H]; [discriminate|auto].
Qed.
Lemma take_in n l b : In b (take_chars n l) -> In b l.
Proof.
  revert n. induction l as [|c l IH]; intros n; [intros []|]. cbn [take_chars]. destruct (is_cont c).
  - intros [->|H]; [now left|right; eauto].
  - destruct n; [intros []|]. intros [->|H]; [now left|right; eauto].
Qed.
Lemma display_lines e : (forall c s, In (c, s) (trail e) -> ~ In b_nl c) -> newlines (display e) = 2 * length (trail e).
Proof.
  induction e as [c s|c s e IH] using perror_forall; cbn [trail display]; intro H.
  - rewrite !newlines_app, (newlines_none c) by (apply (H c s); now left). rewrite !(newlines_none (dec _)) by apply dec_no_nl.
    rewrite (newlines_none (take_chars _ _)) by (intro I; apply take_in in I; now apply first_no_nl in I). reflexivity.
  - rewrite !newlines_app, (newlines_none c) by (apply (H c s); now left). rewrite !(newlines_none (dec _)) by apply dec_no_nl.
    rewrite (newlines_none (take_chars _ _)) by (intro I; apply take_in in I; now apply first_no_nl in I).
    rewrite IH by (intros d t I; apply (H d t); now right).
    replace (newlines (bs ": Line ")) with 0 by reflexivity. replace (newlines (bs ", Column ")) with 0 by reflexivity.
    replace (newlines [b_nl]) with 1 by reflexivity. cbn [length]. lia.
Qed.

(** * Alternatives *)

Notation at_ e := (sp_start (pe_input e)).
Lemma or_last es : forall e, exists x y, e :: es = x ++ fold_left err_or es e :: y /\
  Forall (fun d => at_ d <= at_ (fold_left err_or es e)) x /\ Forall (fun d => at_ d < at_ (fold_left err_or es e)) y.
Proof.
  induction es as [|d es IH] using rev_ind; intro e; [exists [], []; repeat split; constructor|].
  rewrite fold_left_app. cbn [fold_left]. destruct (IH e) as (x & y & E & X & Y). set (m := fold_left err_or es e) in *.
  unfold err_or. destruct (Nat.ltb_spec (at_ d) (at_ m)) as [L|L].
  - exists x, (y ++ [d]). split; [|split; [exact X|apply Forall_app; split; [exact Y|now repeat constructor]]].
    rewrite app_comm_cons, E. now rewrite <- app_assoc.
  - exists (e :: es), []. split; [reflexivity|]. split; [|constructor]. rewrite E. apply Forall_app. split.
    + eapply Forall_impl; [|exact X]. cbn. intros; lia.
    + constructor; [exact L|]. eapply Forall_impl; [|exact Y]. cbn. intros; lia.
Qed.
