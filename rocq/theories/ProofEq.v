(** Equality and strict equality compare normal forms; equal elements feed the
    same to a hasher. *)
From Coq Require Import Permutation NArith.
From Verif Require Import Base ModelSpan ModelAst ModelTable ModelElem ModelVimwiki ModelEq SpecEq ProofBase ProofTable ProofTree.

(** * Maps *)

Section Maps.
Context {K : Type}.
Variable leb : K -> K -> bool.
Hypothesis total : forall a b, leb a b = true \/ leb b a = true.
Hypothesis anti : forall a b, leb a b = true -> leb b a = true -> a = b.
Hypothesis trans : forall a b c, leb a b = true -> leb b c = true -> leb a c = true.
Context {V : Type}.
Implicit Types l m : list (K * V).
Lemma put_perm p l : Permutation (put leb p l) (p :: l).
Proof.
  induction l as [|q l IH]; cbn; auto. destruct (leb _ _); auto.
  rewrite IH. apply perm_swap.
Qed.
Lemma by_key_perm l : Permutation (by_key leb l) l.
Proof. induction l as [|p l IH]; cbn; auto. rewrite put_perm. now constructor. Qed.
Lemma put_comm p q l : fst p <> fst q -> put leb p (put leb q l) = put leb q (put leb p l).
Proof.
  intro N.
  assert (D : leb (fst p) (fst q) = negb (leb (fst q) (fst p))).
  { destruct (leb (fst p) (fst q)) eqn:A, (leb (fst q) (fst p)) eqn:B; auto.
    - destruct N. now apply anti.
    - destruct (total (fst p) (fst q)); congruence. }
  induction l as [|r l IH]; cbn.
  - rewrite D. destruct (leb (fst q) (fst p)); reflexivity.
  - destruct (leb (fst q) (fst r)) eqn:Q, (leb (fst p) (fst r)) eqn:P; cbn; rewrite ?Q, ?P.
    + rewrite D. destruct (leb (fst q) (fst p)) eqn:E; cbn; rewrite ?Q, ?P; reflexivity.
    + destruct (leb (fst p) (fst q)) eqn:E; [|reflexivity].
      assert (leb (fst p) (fst r) = true) by (eapply trans; eauto). congruence.
    + destruct (leb (fst q) (fst p)) eqn:E; [|reflexivity].
      assert (leb (fst q) (fst r) = true) by (eapply trans; eauto). congruence.
    + now rewrite IH.
Qed.
Lemma by_key_eq l m : keyed l -> Permutation l m -> by_key leb l = by_key leb m.
Proof.
  intros N P. induction P as [|p l m P IH|p q l|l m n P1 IH1 P2 IH2]; auto.
  - cbn. f_equal. apply IH. now inversion N.
  - cbn. apply put_comm. unfold keyed in N. cbn in N. inversion N as [|? ? H _]. intro E. apply H. left. auto.
  - rewrite IH1; auto. apply IH2. unfold keyed. eapply Permutation_NoDup; [|exact N]. now apply Permutation_map.
Qed.
Lemma by_key_iff l m : keyed l -> by_key leb l = by_key leb m <-> Permutation l m.
Proof.
  intro N. split; [|now apply by_key_eq]. intro E. rewrite <- (by_key_perm l), E. apply by_key_perm.
Qed.
End Maps.

Section MapEq.
Context {K V W : Type}.
Variables (keqb : K -> K -> bool) (f : V -> V -> bool) (g : V -> W).
Hypothesis keqb_eq : forall a b, keqb a b = true <-> a = b.
Let h (kv : K * V) := (fst kv, g (snd kv)).
Lemma keyed_h m : keyed m -> keyed (map h m).
Proof. unfold keyed. now rewrite map_map. Qed.
Lemma keyed_nodup {U} (m : list (K * U)) : keyed m -> NoDup m.
Proof. apply NoDup_map_inv. Qed.
Lemma assoc_in k (m : list (K * V)) v : assoc keqb k m = Some v -> In (k, v) m.
Proof.
  induction m as [|[k' w] m IH]; cbn; [discriminate|]. destruct (keqb k k') eqn:E; auto.
  apply keqb_eq in E. subst. intro H. injection H as ->. now left.
Qed.
Lemma in_assoc k (m : list (K * V)) v : keyed m -> In (k, v) m -> assoc keqb k m = Some v.
Proof.
  unfold keyed. induction m as [|[k' w] m IH]; cbn; [tauto|]. intros N I. inversion N as [|? ? H N']. subst.
  destruct I as [I|I].
  - injection I as -> ->. now rewrite (proj2 (keqb_eq k k) eq_refl).
  - destruct (keqb k k') eqn:E; [|auto]. apply keqb_eq in E. subst. destruct H. change k' with (fst (k', v)). now apply in_map.
Qed.
Lemma map_eqb_iff m m' : keyed m -> keyed m' ->
  (forall kv kv', In kv m -> In kv' m' -> f (snd kv) (snd kv') = true <-> g (snd kv) = g (snd kv')) ->
  map_eqb keqb f m m' = true <-> Permutation (map h m) (map h m').
Proof.
  intros N N' F. unfold map_eqb. rewrite andb_true_iff, Nat.eqb_eq, forallb_forall. split.
  - intros [L A]. apply NoDup_Permutation_bis.
    + now apply keyed_nodup, keyed_h.
    + rewrite !map_length. lia.
    + intros kw I. apply in_map_iff in I as ([k v] & <- & I). specialize (A _ I). cbn in A.
      destruct (assoc keqb k m') as [w|] eqn:E; [|discriminate]. apply assoc_in in E.
      apply (F (k, v) (k, w) I E) in A. cbn in A. apply in_map_iff. exists (k, w). unfold h. cbn. now rewrite A.
  - intro P. split.
    + apply Permutation_length in P. now rewrite !map_length in P.
    + intros [k v] I. assert (J : In (h (k, v)) (map h m')) by (eapply Permutation_in; [exact P|now apply in_map]).
      apply in_map_iff in J as ([k' w] & E & J). unfold h in E. cbn in E. injection E as -> E. cbn.
      rewrite (in_assoc k m' w N' J). now apply (F (k, v) (k, w) I J).
Qed.
End MapEq.

Lemma str_leb_total a b : str_leb a b = true \/ str_leb b a = true.
Proof.
  revert b. induction a as [|x a IH]; intros [|y b]; cbn [str_leb]; auto.
  destruct (byte_n x <? byte_n y) eqn:A; [now left|]. destruct (byte_n y <? byte_n x) eqn:B; [now right|]. apply IH.
Qed.
Lemma byte_n_inj x y : byte_n x = byte_n y -> x = y.
Proof.
  unfold byte_n. intro H. apply N2Nat.inj in H. pose proof (Byte.of_to_N x) as A. rewrite H, Byte.of_to_N in A. congruence.
Qed.
Lemma str_leb_anti a b : str_leb a b = true -> str_leb b a = true -> a = b.
Proof.
  revert b. induction a as [|x a IH]; intros [|y b]; cbn [str_leb]; auto; try discriminate.
  destruct (byte_n x <? byte_n y) eqn:A, (byte_n y <? byte_n x) eqn:B; try discriminate.
  - apply Nat.ltb_lt in A, B. lia.
  - apply Nat.ltb_ge in A, B. intros P Q. f_equal; auto. apply byte_n_inj. lia.
Qed.
Lemma str_leb_trans a b c : str_leb a b = true -> str_leb b c = true -> str_leb a c = true.
Proof.
  revert b c. induction a as [|x a IH]; intros [|y b] [|z c]; cbn [str_leb]; auto; try discriminate.
  repeat match goal with |- context [?u <? ?v] => destruct (Nat.ltb_spec u v); try lia end; auto; try discriminate.
  apply IH.
Qed.
Lemma pos_leb_total a b : pos_leb a b = true \/ pos_leb b a = true.
Proof.
  unfold pos_leb. rewrite !orb_true_iff, !andb_true_iff, !Nat.ltb_lt, !Nat.eqb_eq, !Nat.leb_le. lia.
Qed.
Lemma pos_leb_anti a b : pos_leb a b = true -> pos_leb b a = true -> a = b.
Proof.
  destruct a as [r c], b as [r' c']. unfold pos_leb. cbn [cp_row cp_col].
  rewrite !orb_true_iff, !andb_true_iff, !Nat.ltb_lt, !Nat.eqb_eq, !Nat.leb_le. intros. f_equal; lia.
Qed.
Lemma pos_leb_trans a b c : pos_leb a b = true -> pos_leb b c = true -> pos_leb a c = true.
Proof. unfold pos_leb. rewrite !orb_true_iff, !andb_true_iff, !Nat.ltb_lt, !Nat.eqb_eq, !Nat.leb_le. lia. Qed.

Lemma n_map_iff l m : keyed l -> n_map l = n_map m <-> Permutation l m.
Proof. apply by_key_iff; [exact str_leb_total|exact str_leb_anti|exact str_leb_trans]. Qed.
Lemma strmap_eqb_iff m m' : keyed m -> keyed m' -> map_eqb str_eqb str_eqb m m' = true <-> n_map m = n_map m'.
Proof.
  intros N N'. rewrite n_map_iff by auto.
  rewrite (map_eqb_iff str_eqb str_eqb (fun s => s)); auto.
  - rewrite !(map_ext (fun kv : str * str => (fst kv, snd kv)) (fun kv => kv)), !map_id by (now intros []). reflexivity.
  - intros. apply str_eqb_eq.
  - intros. apply str_eqb_eq.
Qed.

(** * Lists and simple values *)

Lemma list_eqb_iff {A B} (f : A -> A -> bool) (g : A -> B) l :
  forall m, (forall x y, In x l -> In y m -> f x y = true <-> g x = g y) -> list_eqb f l m = true <-> map g l = map g m.
Proof.
  induction l as [|x l IH]; intros [|y m] H; cbn; try (split; [discriminate|discriminate]); try tauto.
  rewrite andb_true_iff, (H x y), IH by (cbn; auto; intros; apply H; cbn; auto).
  split; [intros [-> ->]; reflexivity|]. intro E. injection E. auto.
Qed.
Lemma list_eqb_eq {A} (f : A -> A -> bool) l m : (forall x y, f x y = true <-> x = y) -> list_eqb f l m = true <-> l = m.
Proof. intro H. rewrite (list_eqb_iff f (fun x => x)), !map_id by auto. reflexivity. Qed.
Lemma opt_eqb_eq {A} (f : A -> A -> bool) a b : (forall x y, f x y = true <-> x = y) -> opt_eqb f a b = true <-> a = b.
Proof.
  intro H. destruct a, b; cbn; rewrite ?H; split; intro E; try discriminate; try reflexivity; [now f_equal|now injection E].
Qed.
Lemma strs_eqb_eq l m : list_eqb str_eqb l m = true <-> l = m.
Proof. apply list_eqb_eq. intros. apply str_eqb_eq. Qed.
Lemma all_in {A} (P : A -> Prop) l : all P l <-> forall x, In x l -> P x.
Proof.
  induction l as [|x l IH]; cbn; [tauto|]. rewrite IH. split; [intros [H1 H2] y [<-|I]; auto|]. intro H. split; auto.
Qed.
Lemma region_eqb_eq a b : region_eqb a b = true <-> a = b.
Proof.
  destruct a, b. unfold region_eqb. cbn. rewrite !andb_true_iff, !Nat.eqb_eq.
  split; [intros [[-> ->] ->]; auto|]. intro E. injection E. auto.
Qed.
Lemma date_eqb_eq a b : date_eqb a b = true <-> a = b.
Proof.
  destruct a, b. unfold date_eqb. cbn. rewrite !andb_true_iff, !Nat.eqb_eq, Z.eqb_eq.
  split; [intros [[-> ->] ->]; auto|]. intro E. injection E. auto.
Qed.
Ltac enum := intros; split; [|intros ->];
  repeat match goal with x : _ |- _ => match type of x with
    keyword => destruct x | deco => destruct x | cell_span => destruct x | col_align => destruct x
    | suffix => destruct x | ordered_ty => destruct x | todo_status => destruct x end end; cbn; congruence.
Lemma keyword_eqb_eq a b : keyword_eqb a b = true <-> a = b. Proof. enum. Qed.
Lemma deco_eqb_eq a b : deco_eqb a b = true <-> a = b. Proof. enum. Qed.
Lemma span_eqb_eq a b : span_eqb a b = true <-> a = b. Proof. enum. Qed.
Lemma align_eqb_eq a b : align_eqb a b = true <-> a = b. Proof. enum. Qed.
Lemma suffix_eqb_eq a b : suffix_eqb a b = true <-> a = b. Proof. enum. Qed.
Lemma ordered_eqb_eq a b : ordered_eqb a b = true <-> a = b. Proof. enum. Qed.
Lemma todo_eqb_eq a b : todo_eqb a b = true <-> a = b. Proof. enum. Qed.
(** [C x = C y <-> x = y] and the like. *)
Ltac inj := split; [intuition congruence | let E := fresh in intro E; injection E; intuition congruence].
Ltac off := try (split; intro; discriminate).
Lemma item_ty_eqb_eq a b : item_ty_eqb a b = true <-> a = b.
Proof.
  destruct a as [o|[| |p]], b as [o'|[| |p']]; cbn; off; try tauto.
  - rewrite ordered_eqb_eq. inj.
  - rewrite str_eqb_eq. inj.
Qed.
Lemma comment_eqb_eq a b : comment_eqb a b = true <-> a = b.
Proof. destruct a, b; cbn; off; rewrite ?str_eqb_eq, ?strs_eqb_eq; inj. Qed.
Lemma placeholder_eqb_eq a b : placeholder_eqb a b = true <-> a = b.
Proof. destruct a, b; cbn; off; rewrite ?andb_true_iff, ?str_eqb_eq, ?date_eqb_eq; try tauto; inj. Qed.
Lemma math_eqb_eq a b : math_eqb a b = true <-> a = b.
Proof.
  destruct a, b. unfold math_eqb. cbn. rewrite andb_true_iff, strs_eqb_eq, opt_eqb_eq by (intros; apply str_eqb_eq). inj.
Qed.
Lemma code_eqb_iff a b : keyed (cb_meta a) -> keyed (cb_meta b) ->
  code_eqb a b = true <-> CodeBlock (cb_lang a) (n_map (cb_meta a)) (cb_lines a) = CodeBlock (cb_lang b) (n_map (cb_meta b)) (cb_lines b).
Proof.
  intros. unfold code_eqb. rewrite !andb_true_iff, strs_eqb_eq, strmap_eqb_iff, opt_eqb_eq by (auto; intros; apply str_eqb_eq). inj.
Qed.
