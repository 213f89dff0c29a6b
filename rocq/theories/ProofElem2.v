(** Proofs about list labels, todo progress, cell position text, definition
    lookup, anchors and percent encoding. *)
From Coq Require Import QArith Lqa NArith Nnat DecimalN DecimalFacts.
From Verif Require Import Base ModelSpan ModelAst ModelTable ModelLink ModelElem
  SpecElem ProofBase ProofTable ProofClaims2.
Local Open Scope nat_scope.

Lemma byte_n_byte_of n : n < 256 -> byte_n (byte_of n) = n.
Proof.
  intro H. unfold byte_n, byte_of.
  destruct (Byte.of_N (N.of_nat n)) as [b|] eqn:E.
  - apply Byte.to_of_N in E. rewrite E. lia.
  - apply Byte.of_N_None_iff in E. lia.
Qed.

Lemma byte_n_inj a b : byte_n a = byte_n b -> a = b.
Proof.
  unfold byte_n. intro H. apply N2Nat.inj in H.
  assert (Byte.of_N (Byte.to_N a) = Byte.of_N (Byte.to_N b)) as K by now rewrite H.
  rewrite !Byte.of_to_N in K. congruence.
Qed.

(** * Labels *)

(** Bijective base 26, least significant letter first. *)
Fixpoint le_value (base : nat) (l : str) : N :=
  match l with
  | [] => 0
  | b :: l' => N.of_nat (byte_n b - base + 1) + 26 * le_value base l'
  end%N.

Definition letter (base : nat) (b : byte) : Prop := base <= byte_n b < base + 26.

Lemma alphabet_loop_spec base : base + 26 <= 256 -> forall fuel i s,
  (i < 26 ^ N.of_nat fuel)%N -> 0 < fuel ->
  exists w, alphabet_loop fuel base i s = s ++ w /\ w <> [] /\ Forall (letter base) w /\
            le_value base w = (i + 1)%N.
Proof.
  intros Hb. induction fuel as [|f IH]; intros i s Hi Hf; [lia|]. cbn [alphabet_loop].
  assert (Hm : (i mod 26 < 26)%N) by (apply N.mod_lt; discriminate).
  pose proof (N.div_mod i 26 ltac:(discriminate)) as Hd.
  set (q := (i / 26)%N) in *. set (m := (i mod 26)%N) in *.
  assert (Hl : letter base (byte_of (base + N.to_nat m)) /\
               byte_n (byte_of (base + N.to_nat m)) = base + N.to_nat m).
  { unfold letter. rewrite byte_n_byte_of by lia. lia. }
  destruct Hl as [Hl Hn].
  destruct (0 <? i - m)%N eqn:E.
  - apply N.ltb_lt in E. assert (Hq : (1 <= q)%N) by lia.
    assert (Eq : ((i - m) / 26 = q)%N).
    { replace (i - m)%N with (q * 26)%N by lia. apply N.div_mul. discriminate. }
    rewrite Eq.
    assert (Hf' : 0 < f).
    { destruct f; [|lia]. change (26 ^ N.of_nat 1)%N with 26%N in Hi. lia. }
    destruct (IH (q - 1)%N (s ++ [byte_of (base + N.to_nat m)])) as (w & Ew & Hne & Hw & Hv); auto.
    { rewrite Nat2N.inj_succ, N.pow_succ_r' in Hi. lia. }
    exists (byte_of (base + N.to_nat m) :: w). rewrite Ew, <- app_assoc. split; [reflexivity|].
    split; [discriminate|]. split; [constructor; auto|]. cbn [le_value]. rewrite Hv, Hn. lia.
  - apply N.ltb_ge in E. exists [byte_of (base + N.to_nat m)]. split; [reflexivity|].
    split; [discriminate|]. split; [constructor; auto|]. cbn [le_value]. rewrite Hn. lia.
Qed.

Lemma pos_size_nat p : N.of_nat (Pos.size_nat p) = N.pos (Pos.size p).
Proof. induction p; cbn [Pos.size_nat Pos.size]; rewrite ?Nat2N.inj_succ, ?IHp; auto; now rewrite <- N.succ_pos_spec. Qed.

Lemma size_pow i : (i < 26 ^ N.of_nat (S (N.size_nat i)))%N.
Proof.
  apply N.lt_le_trans with (2 ^ N.of_nat (N.size_nat i))%N.
  - destruct i as [|p]; [cbn; lia|]. cbn [N.size_nat]. rewrite pos_size_nat.
    exact (Pos.size_gt p).
  - apply N.le_trans with (26 ^ N.of_nat (N.size_nat i))%N.
    + apply N.pow_le_mono_l. lia.
    + apply N.pow_le_mono_r; lia.
Qed.

Definition base_of (lower : bool) : nat := if lower then 97 else 65.

Lemma pos_to_alphabet_spec pos lower : (pos < 4294967296)%N ->
  exists w, pos_to_alphabet pos lower = rev w /\ w <> [] /\ Forall (letter (base_of lower)) w /\
            le_value (base_of lower) w = (pos + 1)%N.
Proof.
  intro H. unfold pos_to_alphabet. rewrite N.mod_small by auto.
  destruct (alphabet_loop_spec (base_of lower) ltac:(destruct lower; cbn; lia)
              (S (N.size_nat pos)) pos [] (size_pow pos) ltac:(lia)) as (w & E & H1 & H2 & H3).
  exists w. unfold base_of in *. rewrite E. auto.
Qed.

(** Values determine words, and order them. *)
Lemma le_value_inj base a : Forall (letter base) a -> forall b, Forall (letter base) b ->
  le_value base a = le_value base b -> a = b.
Proof.
  induction 1 as [|x a Hx Ha IH]; intros [|y b] Hb E; auto.
  - exfalso. cbn [le_value] in E. lia.
  - exfalso. cbn [le_value] in E. lia.
  - inversion Hb as [|? ? Hy Hb']; subst. cbn [le_value] in E. unfold letter in Hx, Hy.
    assert (E2 : le_value base a = le_value base b) by lia.
    assert (E3 : byte_n x = byte_n y) by lia. f_equal; [now apply byte_n_inj | auto].
Qed.

(** Big-endian value. *)
Fixpoint be_value (base : nat) (acc : N) (l : str) : N :=
  match l with
  | [] => acc
  | b :: l' => be_value base (26 * acc + N.of_nat (byte_n b - base + 1)) l'
  end%N.

Lemma be_value_app base acc a b : be_value base acc (a ++ b) = be_value base (be_value base acc a) b.
Proof. revert acc. induction a; intro acc; cbn; auto. Qed.

Lemma be_le base w : be_value base 0 (rev w) = le_value base w.
Proof.
  induction w as [|x w IH]; cbn [rev le_value]; auto. rewrite be_value_app, IH. cbn [be_value]. lia.
Qed.

Lemma be_mono base l l' : Forall (letter base) l -> Forall (letter base) l' ->
  length l = length l' -> forall acc acc', (acc < acc')%N ->
  (be_value base acc l < be_value base acc' l')%N.
Proof.
  intros H. revert l'. induction H as [|x l Hx Hl IH]; intros [|y l'] H' HL acc acc' Ha; cbn in HL; try discriminate.
  - exact Ha.
  - inversion H' as [|? ? Hy Hl']; subst. cbn [be_value]. apply IH; auto. unfold letter in *. lia.
Qed.

Lemma be_alphabetical base l l' : Forall (letter base) l -> Forall (letter base) l' ->
  length l = length l' -> forall acc,
  alphabetical l l' -> (be_value base acc l < be_value base acc l')%N.
Proof.
  intros H. revert l'. induction H as [|x l Hx Hl IH]; intros [|y l'] H' HL acc Ha; cbn in HL, Ha; try tauto.
  inversion H' as [|? ? Hy Hl']; subst. cbn [be_value]. injection HL as HL.
  destruct Ha as [Ha|[-> Ha]]; [|now apply IH]. apply be_mono; auto. unfold letter in *. lia.
Qed.

Lemma alphabetical_total base l l' : Forall (letter base) l -> Forall (letter base) l' ->
  length l = length l' -> alphabetical l l' \/ l = l' \/ alphabetical l' l.
Proof.
  intros H. revert l'. induction H as [|x l Hx Hl IH]; intros [|y l'] H' HL; cbn in HL; try discriminate; auto.
  inversion H'; subst. cbn. destruct (Nat.lt_trichotomy (byte_n x) (byte_n y)) as [L|[L|L]]; auto.
  apply byte_n_inj in L. subst y. destruct (IH l') as [K|[K|K]]; auto.
  subst. auto.
Qed.

(** A shorter word has a smaller value: padding. *)
Lemma be_longer base p l l' : p <> [] -> Forall (letter base) p -> Forall (letter base) l ->
  Forall (letter base) l' -> length l = length l' ->
  (be_value base 0 l < be_value base 0 (p ++ l'))%N.
Proof.
  intros Hp Hp' H1 H2 HL. rewrite be_value_app. apply be_mono; auto.
  destruct p as [|x p]; [congruence|]. inversion Hp'; subst. cbn [be_value].
  clear - H3. assert (K : forall p acc, (0 < acc)%N -> (0 < be_value base acc p)%N).
  { intro p0. induction p0 as [|y p0 IH0]; intros acc Ha; cbn [be_value]; auto. apply IH0. lia. }
  apply K. lia.
Qed.

Lemma comes_before_value base l l' : Forall (letter base) l -> Forall (letter base) l' ->
  (comes_before l l' <-> (be_value base 0 l < be_value base 0 l')%N).
Proof.
  intros H H'.
  assert (F : forall a b, Forall (letter base) a -> Forall (letter base) b ->
              comes_before a b -> (be_value base 0 a < be_value base 0 b)%N).
  { intros a b Ha Hb [L|[L A]]; [|now apply be_alphabetical].
    rewrite <- (firstn_skipn (length b - length a) b).
    rewrite <- (firstn_skipn (length b - length a) b) in Hb. apply Forall_app in Hb as [Hb1 Hb2].
    apply be_longer; auto.
    - intro K. apply (f_equal (@length _)) in K. rewrite firstn_length in K. cbn in K. lia.
    - rewrite skipn_length. lia. }
  split; [now apply F|]. intro Hv.
  destruct (Nat.lt_trichotomy (length l) (length l')) as [L|[L|L]].
  - now left.
  - destruct (alphabetical_total base l l') as [K|[K|K]]; auto.
    + right. auto.
    + subst. lia.
    + assert (be_value base 0 l' < be_value base 0 l)%N by (apply F; auto; right; auto). lia.
  - assert (be_value base 0 l' < be_value base 0 l)%N by (apply F; auto; left; auto). lia.
Qed.

Lemma letters_letter lower l : letters lower l <-> l <> [] /\ Forall (letter (base_of lower)) l.
Proof.
  unfold letters. split; intros [H1 H2]; split; auto; eapply Forall_impl; try exact H2;
    intros b Hb; unfold letter, is_lower, is_upper, base_of in *; destruct lower;
    rewrite ?andb_true_iff, ?Nat.leb_le in *; lia.
Qed.

Lemma label_be pos lower : (pos < 4294967296)%N ->
  letters lower (pos_to_alphabet pos lower) /\
  be_value (base_of lower) 0 (pos_to_alphabet pos lower) = (pos + 1)%N.
Proof.
  intro H. destruct (pos_to_alphabet_spec pos lower H) as (w & E & Hne & Hw & Hv).
  rewrite E, be_le. split; auto. apply letters_letter. split.
  - intro K. apply Hne. rewrite <- (rev_involutive w), K. reflexivity.
  - now apply Forall_rev.
Qed.

Lemma label_order p q lower : (p < 4294967296)%N -> (q < 4294967296)%N ->
  (comes_before (pos_to_alphabet p lower) (pos_to_alphabet q lower) <-> (p < q)%N).
Proof.
  intros Hp Hq. destruct (label_be p lower Hp) as [Lp Vp]. destruct (label_be q lower Hq) as [Lq Vq].
  apply letters_letter in Lp as [_ Lp]. apply letters_letter in Lq as [_ Lq].
  rewrite (comes_before_value (base_of lower)) by auto. rewrite Vp, Vq. lia.
Qed.

Lemma label_onto lower l : letters lower l ->
  (be_value (base_of lower) 0 l <= 4294967296)%N ->
  exists p, (p < 4294967296)%N /\ pos_to_alphabet p lower = l.
Proof.
  intros H Hv. apply letters_letter in H as [Hne Hl].
  assert (Hpos : (0 < be_value (base_of lower) 0 l)%N).
  { rewrite <- (rev_involutive l), be_le. destruct (rev l) as [|b w] eqn:E; [|cbn; lia].
    exfalso. apply Hne. rewrite <- (rev_involutive l), E. reflexivity. }
  set (p := (be_value (base_of lower) 0 l - 1)%N).
  assert (Hp : (p < 4294967296)%N) by (unfold p; lia). exists p. split; auto.
  destruct (label_be p lower Hp) as [Lp Vp]. apply letters_letter in Lp as [_ Lp].
  rewrite <- (rev_involutive (pos_to_alphabet p lower)), <- (rev_involutive l) in *. f_equal.
  apply (le_value_inj (base_of lower)); try (apply Forall_rev; auto; fail).
  - rewrite rev_involutive in Lp. now apply Forall_rev.
  - rewrite rev_involutive in Hl. now apply Forall_rev.
  - rewrite !rev_involutive in *. rewrite <- !be_le, !rev_involutive. rewrite Vp. unfold p. lia.
Qed.

(** * Todo progress *)

Definition qn (n : nat) : Q := inject_Z (Z.of_nat n).

Lemma qn_S n : (qn (S n) == qn n + 1)%Q.
Proof. unfold qn. rewrite Nat2Z.inj_succ, <- Z.add_1_r, inject_Z_plus. reflexivity. Qed.
Lemma qn_plus n m : (qn (n + m) == qn n + qn m)%Q.
Proof. unfold qn. rewrite Nat2Z.inj_add, inject_Z_plus. reflexivity. Qed.
Lemma qn_nonneg n : (0 <= qn n)%Q.
Proof. unfold qn. change 0%Q with (inject_Z 0). rewrite <- Zle_Qle. lia. Qed.
Lemma qn_pos n : 0 < n -> (0 < qn n)%Q.
Proof. intro. unfold qn. change 0%Q with (inject_Z 0). rewrite <- Zlt_Qlt. lia. Qed.

Definition all_complete (ms : list todo_status) : Prop := Forall (fun m => m = TodoComplete) ms.
Definition all_incomplete (ms : list todo_status) : Prop := Forall (fun m => m = TodoIncomplete) ms.

Definition good (s : Q) (n : nat) (ms : list todo_status) : Prop :=
  (n = 0 <-> ms = []) /\ (0 <= s <= qn n)%Q /\
  ((s == qn n)%Q <-> all_complete ms) /\ ((s == 0)%Q <-> all_incomplete ms).

Lemma good_0 : good 0 0 [].
Proof.
  unfold good. cbn. split; [tauto|]. split; [split; apply Qle_refl|].
  split; split; intros; try constructor; reflexivity.
Qed.

Lemma good_plus s n ms s' n' ms' : good s n ms -> good s' n' ms' -> good (s + s') (n + n') (ms ++ ms').
Proof.
  intros (A & B & C & D) (A' & B' & C' & D'). unfold good. pose proof (qn_plus n n') as E.
  unfold all_complete, all_incomplete in *. rewrite !Forall_app, <- C, <- C', <- D, <- D'. split.
  { rewrite Nat.eq_add_0, A, A'. split.
    - intros [-> ->]. reflexivity.
    - intro K. now apply app_eq_nil in K. }
  repeat split; intros; try lra.
Qed.

Definition item_good (o : option Q) (ms : list todo_status) : Prop :=
  match o with
  | None => ms = []
  | Some q => ms <> [] /\ good q 1 ms
  end.

Lemma own_good t : item_good (todo_progress t) (own_mark t).
Proof.
  assert (E : (qn 1 == 1)%Q) by reflexivity.
  destruct t as [[]|]; cbn; auto; (split; [discriminate|]); unfold good, all_complete, all_incomplete;
    rewrite E; (split; [split; [lia | discriminate]|]); (split; [split; lra|]);
    (split; split; intro K; try (now exfalso; lra); try (inversion K; discriminate); try lra; repeat constructor).
Qed.

Lemma items_good items :
  (forall it, In it items -> item_good (compute_todo_progress (l_val it)) (marks (l_val it))) ->
  forall s n ms, good s n ms ->
  let '(s', n') := fold_left
              (fun acc it =>
                 match compute_todo_progress (l_val it) with
                 | Some p => ((fst acc + p)%Q, S (snd acc))
                 | None => acc
                 end)
              items (s, n) in
  good s' n' (ms ++ flat_map (fun i => marks (l_val i)) items).
Proof.
  induction items as [|it items IH]; intros H s n ms G.
  - cbn. now rewrite app_nil_r.
  - cbn [fold_left flat_map]. pose proof (H it (or_introl eq_refl)) as Hi.
    specialize (IH (fun x Hx => H x (or_intror Hx))).
    destruct (compute_todo_progress (l_val it)) as [p|]; cbn [item_good fst snd] in *.
    + destruct Hi as [_ Hi]. rewrite app_assoc. apply IH. replace (S n) with (n + 1) by lia.
      now apply good_plus.
    + rewrite Hi. cbn. now apply IH.
Qed.

Definition acc_good (acc : option (Q * nat)) (ms : list todo_status) : Prop :=
  match acc with
  | None => ms = []
  | Some (s, n) => ms <> [] /\ good s n ms
  end.

Lemma good_nonempty s n ms : good s n ms -> 0 < n -> ms <> [].
Proof. intros (A & _) H K. apply A in K. lia. Qed.

Lemma contents_good contents :
  (forall c, In c contents ->
     match list_progress (l_val c) with
     | Some (s, n) => good s n (block_marks (l_val c))
     | None => block_marks (l_val c) = []
     end) ->
  forall acc ms, acc_good acc ms ->
  acc_good (fold_left
              (fun acc c =>
                 match list_progress (l_val c) with
                 | Some (sum, count) =>
                     let '(sum, count) :=
                       match acc with
                       | Some (asum, acount) => (sum + asum, (count + acount)%nat)
                       | None => (sum, count)
                       end%Q in
                     if 0 <? count then Some (sum, count) else None
                 | None => acc
                 end)
              contents acc)
           (ms ++ flat_map (fun c => block_marks (l_val c)) contents).
Proof.
  induction contents as [|c contents IH]; intros H acc ms G.
  - cbn [fold_left flat_map]. now rewrite app_nil_r.
  - cbn [fold_left flat_map]. pose proof (H c (or_introl eq_refl)) as Hc. rewrite app_assoc.
    apply IH; [intros x Hx; apply H; now right|].
    destruct (list_progress (l_val c)) as [[s n]|].
    + assert (G' : forall a k, good a k ms ->
              good (s + a) (n + k) (ms ++ block_marks (l_val c))).
      { intros a k Ga. pose proof (good_plus _ _ _ _ _ _ Ga Hc) as (P1 & P2 & P3 & P4).
        rewrite (Nat.add_comm n k). split; auto. rewrite (Qplus_comm s a). auto. }
      destruct acc as [[a k]|]; cbn [acc_good] in G.
      * destruct G as [Gne G]. specialize (G' a k G).
        destruct (0 <? n + k) eqn:E.
        -- apply Nat.ltb_lt in E. cbn. split; auto. eapply good_nonempty; eauto.
        -- apply Nat.ltb_ge in E. cbn. destruct G' as (K & _). apply K. lia.
      * subst ms. cbn [app]. destruct (0 <? n) eqn:E.
        -- apply Nat.ltb_lt in E. cbn. split; auto. eapply good_nonempty; eauto.
        -- apply Nat.ltb_ge in E. cbn. destruct Hc as (K & _). apply K. lia.
    + rewrite Hc, app_nil_r. exact G.
Qed.

Lemma progress_good : forall i, item_good (compute_todo_progress i) (marks i).
Proof.
  fix IH 1. intros [ty suf pos contents todo].
  pose proof (contents_good contents) as HC.
  assert (Hc : forall c, In c contents ->
     match list_progress (l_val c) with
     | Some (s, n) => good s n (block_marks (l_val c))
     | None => block_marks (l_val c) = []
     end).
  { clear HC. revert contents.
    fix IHc 1. intros [|[b r] contents] c Hin; [destruct Hin|].
    destruct Hin as [<-|Hin]; [|exact (IHc contents c Hin)].
    cbn [l_val]. destruct b as [| | | |items| | | | |]; try reflexivity.
    cbn [list_progress block_marks].
    assert (Hi : forall it, In it items -> item_good (compute_todo_progress (l_val it)) (marks (l_val it))).
    { revert items. fix IHi 1. intros [|[x rx] items] it Hin; [destruct Hin|].
      destruct Hin as [<-|Hin]; [exact (IH x) | exact (IHi items it Hin)]. }
    pose proof (items_good items Hi 0%Q 0 [] good_0) as K.
    destruct (fold_left _ items (0%Q, 0)) as [s n]. exact K. }
  specialize (HC Hc None [] eq_refl). cbn [app] in HC. clear Hc.
  cbn [compute_todo_progress marks].
  destruct (fold_left _ contents None) as [[s n]|].
  - destruct HC as [Hne HC].
    destruct (flat_map (fun c => block_marks (l_val c)) contents) as [|m ms]; [congruence|].
    cbn [item_good]. split; [discriminate|].
    destruct HC as (A & B & C & D).
    assert (Hn : 0 < n) by (destruct n; [exfalso; apply Hne, A; auto | lia]).
    pose proof (qn_pos n Hn) as Hq. fold (qn n). unfold good.
    assert (E1 : (qn 1 == 1)%Q) by reflexivity. rewrite E1.
    assert (M : (s / qn n * qn n == s)%Q) by (field; lra).
    split; [split; [lia | congruence]|]. rewrite <- C, <- D. split.
    + split; [apply Qle_shift_div_l; lra | apply Qle_shift_div_r; lra].
    + split; split; intro K.
      * rewrite K in M. lra.
      * rewrite K. field. lra.
      * rewrite K in M. lra.
      * rewrite K. field. lra.
  - cbn [acc_good] in HC. rewrite HC. apply own_good.
Qed.

(** The progress is the mean over the direct sub-items that have one. *)
Definition somes {A} (l : list (option A)) : list A :=
  flat_map (fun o => match o with Some x => [x] | None => [] end) l.

Lemma items_sum items : forall s n,
  let '(s', n') := fold_left
              (fun acc it =>
                 match compute_todo_progress (l_val it) with
                 | Some p => ((fst acc + p)%Q, S (snd acc))
                 | None => acc
                 end)
              items (s, n) in
  (s' == s + sumQ (somes (map compute_todo_progress (map l_val items))))%Q /\
  n' = n + length (somes (map compute_todo_progress (map l_val items))).
Proof.
  induction items as [|it items IH]; intros s n; cbn [fold_left map somes flat_map].
  - cbn. split; [lra | lia].
  - destruct (compute_todo_progress (l_val it)) as [p|].
    + specialize (IH (s + p)%Q (S n)). cbn [fst snd].
      destruct (fold_left _ items ((s + p)%Q, S n)) as [s' n']. destruct IH as [I1 I2].
      change (somes (Some p :: ?l)) with (p :: somes l).
      change ([p] ++ ?l) with (p :: l). cbn [sumQ fold_right length].
      change (flat_map (fun o => match o with Some x => [x] | None => [] end) ?l) with (somes l).
      change (fold_right Qplus 0%Q ?l) with (sumQ l). split; [lra | lia].
    + cbn [app]. apply IH.
Qed.

Lemma progress_mean i :
  let ps := somes (map compute_todo_progress (sub_items i)) in
  match ps with
  | [] => compute_todo_progress i = todo_progress (li_todo i)
  | _ => exists q, compute_todo_progress i = Some q /\ (q == sumQ ps / qn (length ps))%Q
  end.
Proof.
  destruct i as [ty suf pos contents todo]. cbn [li_todo sub_items li_contents compute_todo_progress].
  assert (K : forall contents acc (ps : list Q),
    match acc with
    | None => ps = []
    | Some (s, n) => ps <> [] /\ (s == sumQ ps)%Q /\ n = length ps
    end ->
    let all := ps ++ somes (map compute_todo_progress
        (flat_map (fun c => match l_val c with BList items => map l_val items | _ => [] end) contents)) in
    match fold_left
              (fun acc c =>
                 match list_progress (l_val c) with
                 | Some (sum, count) =>
                     let '(sum, count) :=
                       match acc with
                       | Some (asum, acount) => (sum + asum, (count + acount)%nat)
                       | None => (sum, count)
                       end%Q in
                     if 0 <? count then Some (sum, count) else None
                 | None => acc
                 end)
              contents acc with
    | None => all = []
    | Some (s, n) => all <> [] /\ (s == sumQ all)%Q /\ n = length all
    end).
  { clear. induction contents as [|c contents IH]; intros acc ps H; cbn [fold_left flat_map map].
    - cbn [somes flat_map map]. rewrite app_nil_r. exact H.
    - rewrite map_app. assert (Ea : forall l m, somes (l ++ m) = somes l ++ @somes Q m)
        by (intros; apply flat_map_app).
      rewrite Ea, app_assoc. apply IH. clear IH.
      assert (Hs : forall a b, (sumQ (a ++ b) == sumQ a + sumQ b)%Q).
      { induction a as [|x a IHa]; intro b; unfold sumQ in *; cbn [app fold_right]; [ring|].
        rewrite IHa. ring. }
      destruct (l_val c) as [| | | |items| | | | |]; cbn [list_progress map somes flat_map];
        rewrite ?app_nil_r; try exact H.
      pose proof (items_sum items 0%Q 0) as HI.
      destruct (fold_left _ items (0%Q, 0)) as [s n]. destruct HI as [H1 H2].
      set (qs := somes (map compute_todo_progress (map l_val items))) in *.
      change (flat_map (fun o => match o with Some x => [x] | None => [] end) ?l) with (somes l).
      fold qs.
      destruct acc as [[a k]|].
      + destruct H as (Hne & Ha & Hk).
        destruct (0 <? n + k) eqn:E.
        * split; [intro X; apply app_eq_nil in X; tauto|]. rewrite Hs, app_length. split; [lra | lia].
        * apply Nat.ltb_ge in E. exfalso. destruct ps; [congruence | cbn in Hk; lia].
      + subst ps. cbn [app]. destruct (0 <? n) eqn:E.
        * apply Nat.ltb_lt in E. split; [|split; [lra | lia]]. intro X. rewrite X in H2. cbn in H2. lia.
        * apply Nat.ltb_ge in E. destruct qs; auto. cbn in H2. lia. }
  specialize (K contents None [] eq_refl). cbn [app] in K. unfold sub_items, li_contents.
  set (ps := somes _) in *.
  destruct (fold_left _ contents None) as [[s n]|].
  - destruct K as (Hne & Hs & Hn). destruct ps as [|p ps]; [congruence|].
    eexists. split; [reflexivity|]. rewrite Hs, Hn. reflexivity.
  - rewrite K. reflexivity.
Qed.

(** * Decimal numbers *)

Fixpoint dval (acc : N) (d : Decimal.uint) : N :=
  match d with
  | Decimal.Nil => acc
  | Decimal.D0 d => dval (10 * acc) d
  | Decimal.D1 d => dval (10 * acc + 1) d
  | Decimal.D2 d => dval (10 * acc + 2) d
  | Decimal.D3 d => dval (10 * acc + 3) d
  | Decimal.D4 d => dval (10 * acc + 4) d
  | Decimal.D5 d => dval (10 * acc + 5) d
  | Decimal.D6 d => dval (10 * acc + 6) d
  | Decimal.D7 d => dval (10 * acc + 7) d
  | Decimal.D8 d => dval (10 * acc + 8) d
  | Decimal.D9 d => dval (10 * acc + 9) d
  end%N.

Lemma dval_acc d : forall p, dval (N.pos p) d = N.pos (Pos.of_uint_acc d p).
Proof.
  induction d; intro p; cbn [dval Pos.of_uint_acc]; auto;
    match goal with |- dval ?a _ = N.pos (Pos.of_uint_acc _ ?b) =>
      replace a with (N.pos b) by lia end; apply IHd.
Qed.

Lemma dval_of_uint d : dval 0 d = N.of_uint d.
Proof.
  unfold N.of_uint. induction d; cbn [dval Pos.of_uint]; auto;
    match goal with |- dval ?a _ = N.pos (Pos.of_uint_acc _ ?b) =>
      change a with (N.pos b) end; apply dval_acc.
Qed.

Lemma dval_mono d : forall acc, (acc <= dval acc d)%N.
Proof.
  induction d; intro acc; cbn [dval]; try apply N.le_refl;
    (eapply N.le_trans; [|apply IHd]; lia).
Qed.

Lemma parse_uint_str d : forall acc, (dval acc d < usize_bound)%N ->
  parse_digits acc (uint_str d) = Some (dval acc d).
Proof.
  induction d; intros acc H; cbn [dval] in *; [reflexivity| ..];
    cbn [uint_str parse_digits];
    match goal with |- context [is_digit ?b] => change (is_digit b) with true end; cbv iota;
    match goal with |- context [N.of_nat (byte_n ?b - 48)] =>
      let v := eval vm_compute in (N.of_nat (byte_n b - 48)) in
      change (N.of_nat (byte_n b - 48)) with v end;
    rewrite ?N.add_0_r; cbv zeta;
    match goal with |- context [(?v <? usize_bound)%N] =>
      assert (L : (v < usize_bound)%N) by (eapply N.le_lt_trans; [apply dval_mono | exact H]);
      apply N.ltb_lt in L; rewrite L; apply IHd; exact H end.
Qed.

Lemma uint_str_digits d : Forall (fun b => is_digit b = true) (uint_str d).
Proof. induction d; cbn [uint_str]; constructor; auto. Qed.

Lemma dec_nonempty n : dec n <> [].
Proof.
  unfold dec. intro H. destruct (N.to_uint n) eqn:E; try discriminate.
  assert (n = 0)%N by (rewrite <- (DecimalN.Unsigned.of_to n), E; reflexivity).
  subst n. discriminate.
Qed.

Lemma parse_usize_dec n : (n < usize_bound)%N -> parse_usize (dec n) = Some n.
Proof.
  intro H. pose proof (uint_str_digits (N.to_uint n)) as D. fold (dec n) in D.
  pose proof (dec_nonempty n) as Hne. unfold parse_usize.
  assert (E : match dec n with x2b :: l' => l' | _ => dec n end = dec n).
  { destruct (dec n) as [|b l]; [congruence|]. inversion D; subst.
    destruct b; try reflexivity; discriminate. }
  rewrite E. destruct (dec n) as [|b l] eqn:El; [congruence|]. rewrite <- El. unfold dec.
  rewrite parse_uint_str; rewrite dval_of_uint, DecimalN.Unsigned.of_to; auto.
Qed.

Lemma uws_digit b l : is_digit b = true -> uws_len_rev (b :: l) = 0 /\ ModelBlock.uws_len (b :: l) = 0.
Proof.
  intro H. split.
  - assert (E : ((128 <=? byte_n b) && (byte_n b <=? 138)) || beqb b xa8 || beqb b xa9 || beqb b xaf = false)
      by (destruct b; try discriminate H; reflexivity).
    destruct b; try discriminate H; (destruct l as [|c [|d l]]; [reflexivity| |]);
      destruct c; try reflexivity; destruct d; try reflexivity; unfold uws_len_rev; now rewrite E.
  - destruct b; try discriminate H; reflexivity.
Qed.

Lemma str_trim_digits l : Forall (fun b => is_digit b = true) l -> str_trim l = l.
Proof.
  intro H. unfold str_trim, str_trim_start, str_trim_end.
  assert (E : drop_uws ModelBlock.uws_len (length l) l = l).
  { destruct H as [|b l Hb H]; auto. cbn [length drop_uws]. now rewrite (proj2 (uws_digit b l Hb)). }
  rewrite E. apply Forall_rev in H.
  assert (E' : drop_uws uws_len_rev (length l) (rev l) = rev l).
  { rewrite <- rev_length. destruct H as [|b r Hb H]; auto.
    cbn [length drop_uws]. now rewrite (proj1 (uws_digit b r Hb)). }
  rewrite E'. apply rev_involutive.
Qed.

(** * Splitting and joining *)

Lemma split_on_none c l : ~ In c l -> split_on c l = [l].
Proof.
  induction l as [|b l IH]; cbn [split_on]; auto. intro H.
  destruct (beqb_spec b c) as [->|]; [exfalso; apply H; now left|].
  rewrite IH; auto. intro K. apply H. now right.
Qed.

Lemma split_on_app c a b : ~ In c a -> split_on c (a ++ c :: b) = a :: split_on c b.
Proof.
  induction a as [|x a IH]; intro H; cbn [app split_on].
  - now rewrite beqb_refl.
  - destruct (beqb_spec x c) as [->|]; [exfalso; apply H; now left|].
    rewrite IH; auto. intro K. apply H. now right.
Qed.

Lemma split_on_join c parts : parts <> [] -> Forall (fun p => ~ In c p) parts ->
  split_on c (join [c] parts) = parts.
Proof.
  intros Hne H. induction H as [|p parts Hp H IH]; [congruence|].
  destruct parts as [|q parts]; [now apply split_on_none|].
  change (join [c] (p :: q :: parts)) with (p ++ c :: join [c] (q :: parts)).
  rewrite split_on_app by auto. now rewrite IH by discriminate.
Qed.

Lemma cellpos_round_trip p :
  (N.of_nat (cp_row p) < usize_bound)%N -> (N.of_nat (cp_col p) < usize_bound)%N ->
  cellpos_from_str (cellpos_display p) = CpOk p.
Proof.
  destruct p as [r c]. cbn [cp_row cp_col]. intros Hr Hc. unfold cellpos_from_str, cellpos_display.
  cbn [cp_row cp_col].
  assert (D : forall n, Forall (fun b => is_digit b = true) (dec n)) by (intro; apply uint_str_digits).
  assert (Nc : forall n, ~ In x2c (dec n)).
  { intros n K. pose proof (D n) as Dn. rewrite Forall_forall in Dn. apply Dn in K. discriminate. }
  change (bs "," ++ dec (N.of_nat c)) with (x2c :: dec (N.of_nat c)).
  rewrite split_on_app, split_on_none by auto. rewrite !str_trim_digits, !parse_usize_dec by auto.
  now rewrite !Nat2N.id.
Qed.

(** * Anchors *)

Lemma anchor_display_round_trip a : Forall (fun p => ~ In x23 p) a ->
  anchor_from_fragment (anchor_display a) = Some a.
Proof.
  intro H. unfold anchor_from_fragment, anchor_display. destruct a as [|p a]; [reflexivity|].
  change (bs "#" ++ ?l) with (x23 :: l). cbn [split_on]. rewrite beqb_refl.
  change (bs "#") with [x23]. now rewrite split_on_join by (discriminate || auto).
Qed.

Lemma split_on_inv c l : split_on c l <> [] /\ join [c] (split_on c l) = l /\
  Forall (fun p => ~ In c p) (split_on c l).
Proof.
  induction l as [|b l (N & J & F)]; [repeat split; [discriminate | repeat constructor; auto]|].
  cbn [split_on]. destruct (beqb_spec b c) as [->|E].
  - split; [discriminate|]. split; [|constructor; auto].
    change (join [c] ([] :: ?m)) with (match m with [] => [] | _ => [] ++ [c] ++ join [c] m end).
    destruct (split_on c l) eqn:K; [contradiction|]. rewrite J. reflexivity.
  - destruct (split_on c l) as [|x xs] eqn:K; [contradiction|].
    split; [discriminate|]. split.
    + destruct xs; cbn [join] in *; rewrite <- J; reflexivity.
    + inversion F; subst. constructor; auto. intros [G|G]; [subst; contradiction | auto].
Qed.

Lemma anchor_from_fragment_inv s a : anchor_from_fragment s = Some a ->
  anchor_display a = s /\ Forall (fun p => ~ In x23 p) a.
Proof.
  unfold anchor_from_fragment. destruct (split_on_inv x23 s) as (N & J & F).
  destruct (split_on x23 s) as [|[|? ?] it]; try discriminate. intros [= ->].
  apply Forall_inv_tail in F. split; [|exact F].
  rewrite <- J. unfold anchor_display. destruct a; reflexivity.
Qed.

Definition p23 : str := [x25; x32; x33].

Lemma split_go_none l : ~ occurs p23 l -> split_str_go p23 0 l = [l].
Proof.
  induction l as [|b l IH]; cbn [split_str_go]; auto. intro H.
  destruct (starts_with p23 (b :: l)) eqn:E.
  - exfalso. apply H. apply starts_with_spec in E as [r E]. exists [], r. exact E.
  - rewrite IH; auto. intros (x & y & K). apply H. exists (b :: x), y. cbn. now rewrite K.
Qed.

Lemma split_go_app p r : ~ occurs p23 p -> split_str_go p23 0 (p ++ p23 ++ r) = p :: split_str_go p23 0 r.
Proof.
  induction p as [|b p IH]; intro H.
  - reflexivity.
  - cbn [app split_str_go]. destruct (starts_with p23 (b :: p ++ p23 ++ r)) eqn:E.
    + exfalso. apply starts_with_spec in E as [q E]. unfold p23 in E.
      destruct p as [|c [|d p]]; cbn in E; [discriminate | discriminate |].
      injection E as -> -> -> _. apply H. exists [], p. reflexivity.
    + rewrite IH; auto. intros (x & y & K). apply H. exists (b :: x), y. cbn. now rewrite K.
Qed.

Lemma split_str_join parts : parts <> [] -> Forall (fun p => ~ occurs p23 p) parts ->
  split_str p23 (join p23 parts) = parts.
Proof.
  intros Hne H. unfold split_str. induction H as [|p parts Hp H IH]; [congruence|].
  destruct parts as [|q parts]; [now apply split_go_none|].
  change (join p23 (p :: q :: parts)) with (p ++ p23 ++ join p23 (q :: parts)).
  rewrite split_go_app by auto. now rewrite IH by discriminate.
Qed.

Lemma anchor_uri_round_trip a u d p : a <> [] -> Forall (fun p => ~ occurs p23 p) a ->
  u_fragment u = Some (join p23 a) ->
  anchor_to_fragment a = bs "#" ++ join p23 a /\ to_anchor (LinkData u d p) = Some a.
Proof.
  intros Hne H Hu. split; [destruct a; [congruence | reflexivity]|].
  unfold to_anchor. cbn [ld_uri]. rewrite Hu. cbn [option_map].
  change (bs "%23") with p23. now rewrite split_str_join.
Qed.

(** * Percent encoding *)

(** [e] encodes [s]: every byte is written as itself or as a triple. *)
Inductive enc_of : str -> str -> Prop :=
| enc_nil : enc_of [] []
| enc_lit b s e : enc_of s e -> enc_of (b :: s) (b :: e)
| enc_pct b s e : enc_of s e -> enc_of (b :: s) (pct b ++ e).

Definition no_triple (s : str) : Prop := forall t, escape_triple t -> ~ occurs t s.

Lemma no_triple_tl b s : no_triple (b :: s) -> no_triple s.
Proof. intros H t Ht (x & y & K). apply (H t Ht). exists (b :: x), y. cbn. now rewrite K. Qed.

Lemma hex_val_pct b : exists a c, pct b = [x25; a; c] /\ a <> x25 /\ c <> x25 /\
  exists i j, hex_val a = Some i /\ hex_val c = Some j /\ byte_of (16 * i + j) = b.
Proof. destruct b; do 2 eexists; (split; [reflexivity|]); (split; [discriminate|]); (split; [discriminate|]);
  do 2 eexists; (split; [reflexivity|]); (split; [reflexivity|]); reflexivity. Qed.

Lemma hex_val_class h n : hex_val h = Some n ->
  is_digit h = true \/ 65 <= byte_n h <= 70 \/ 97 <= byte_n h <= 102.
Proof.
  unfold hex_val, is_digit.
  destruct ((48 <=? byte_n h) && (byte_n h <=? 57)) eqn:E1; auto.
  destruct ((65 <=? byte_n h) && (byte_n h <=? 70)) eqn:E2;
    [rewrite andb_true_iff, !Nat.leb_le in E2; auto|].
  destruct ((97 <=? byte_n h) && (byte_n h <=? 102)) eqn:E3;
    [rewrite andb_true_iff, !Nat.leb_le in E3; auto | discriminate].
Qed.

Lemma triple_of h1 h2 a c : hex_val h1 = Some a -> hex_val h2 = Some c -> escape_triple [x25; h1; h2].
Proof.
  intros H1 H2. exists h1, h2. split; auto. intros h [->| ->]; eauto using hex_val_class.
Qed.

Lemma hex_not_pct h n : hex_val h = Some n -> h <> x25.
Proof. intros H ->. discriminate. Qed.

Lemma enc_head s h e n : enc_of s (h :: e) -> hex_val h = Some n ->
  exists s', s = h :: s' /\ enc_of s' e.
Proof.
  intros H Hh. remember (h :: e) as l eqn:E. destruct H as [|b s' e' H'|b s' e' H']; [discriminate| |].
  - injection E as -> ->. eauto.
  - destruct (hex_val_pct b) as (a & c & E' & _). rewrite E' in E. injection E as E _.
    subst h. discriminate.
Qed.

Lemma enc_decode s e : enc_of s e -> no_triple s -> percent_decode e = s.
Proof.
  induction 1 as [|b s e H IH|b s e H IH]; intro Hn; auto.
  - cbn [percent_decode]. specialize (IH (no_triple_tl _ _ Hn)).
    destruct (beqb_spec b x25) as [->|]; [|now rewrite IH].
    destruct e as [|h1 [|h2 e]]; try now rewrite IH.
    destruct (hex_val h1) as [a|] eqn:E1; [|now rewrite IH].
    destruct (hex_val h2) as [c|] eqn:E2; [|now rewrite IH].
    exfalso. destruct (enc_head _ _ _ _ H E1) as (s1 & -> & H1).
    destruct (enc_head _ _ _ _ H1 E2) as (s2 & -> & H2).
    apply (Hn [x25; h1; h2]); [eapply triple_of; eauto|]. exists [], s2. reflexivity.
  - destruct (hex_val_pct b) as (a & c & E & _ & _ & i & j & Ea & Ec & Eb). rewrite E.
    cbn [app percent_decode]. change (beqb x25 x25) with true. cbv iota.
    now rewrite Ea, Ec, Eb, (IH (no_triple_tl _ _ Hn)).
Qed.

Lemma percent_encode_cons b s :
  percent_encode (b :: s) = (if must_encode b then pct b else [b]) ++ percent_encode s.
Proof. reflexivity. Qed.

Lemma percent_encode_enc s : enc_of s (percent_encode s).
Proof.
  induction s as [|b s IH]; [constructor|]. rewrite percent_encode_cons.
  destruct (must_encode b); [now apply enc_pct | now apply enc_lit].
Qed.

Lemma replace_first_head b l : b <> x25 ->
  replace_first p23 (bs "#") (b :: l) = b :: replace_first p23 (bs "#") l.
Proof.
  intro H. cbn [replace_first].
  assert (E : starts_with p23 (b :: l) = false).
  { destruct (starts_with p23 (b :: l)) eqn:E; auto. apply starts_with_spec in E as [r E].
    cbn in E. injection E as E _. congruence. }
  now rewrite E.
Qed.

Lemma replace_first_cons b l : replace_first p23 (bs "#") (b :: l) =
  if starts_with p23 (b :: l) then bs "#" ++ skipn (length p23) (b :: l)
  else b :: replace_first p23 (bs "#") l.
Proof. reflexivity. Qed.

Lemma encode_uri_enc s : no_triple s -> enc_of s (encode_uri s).
Proof.
  unfold encode_uri. change (bs "%23") with p23.
  induction s as [|b s IH]; intro Hn; [constructor|].
  specialize (IH (no_triple_tl _ _ Hn)). rewrite percent_encode_cons.
  destruct (must_encode b) eqn:M.
  - destruct (hex_val_pct b) as (h1 & h2 & E & N1 & N2 & i & j & E1 & E2 & Eb). rewrite E.
    cbn [app]. rewrite replace_first_cons.
    destruct (starts_with p23 (x25 :: h1 :: h2 :: percent_encode s)) eqn:Es.
    + apply starts_with_spec in Es as [r Er]. cbn in Er. injection Er as -> -> Er.
      cbn in E1, E2. injection E1 as <-. injection E2 as <-.
      assert (b = x23) by (rewrite <- Eb; reflexivity). subst b.
      cbn [length p23 skipn app bs]. apply (enc_lit x23). apply percent_encode_enc.
    + rewrite !replace_first_head by auto.
      change (x25 :: h1 :: h2 :: ?l) with ([x25; h1; h2] ++ l). rewrite <- E. now apply enc_pct.
  - cbn [app]. rewrite replace_first_cons.
    destruct (starts_with p23 (b :: percent_encode s)) eqn:Es; [|now apply enc_lit].
    exfalso. apply starts_with_spec in Es as [r Er]. cbn in Er. injection Er as -> Er.
    pose proof (percent_encode_enc s) as H. rewrite Er in H.
    destruct (enc_head s x32 (x33 :: r) 2 H eq_refl) as (s1 & -> & H1).
    destruct (enc_head s1 x33 r 3 H1 eq_refl) as (s2 & -> & _).
    apply (Hn [x25; x32; x33]); [apply (triple_of x32 x33 2 3); reflexivity|].
    exists [], s2. reflexivity.
Qed.

Lemma encode_lossless s : no_triple s -> percent_decode (encode_uri s) = s.
Proof. intro H. apply enc_decode; auto. now apply encode_uri_enc. Qed.

(** * Words and definition lookup *)

Lemma keyword_word_display k : keyword_word k = keyword_display k.
Proof. destruct k; reflexivity. Qed.

Scheme dreads_mind := Induction for dreads Sort Prop
with dreads_all_mind := Induction for dreads_all Sort Prop.

Lemma dreads_display :
  (forall c s, dreads c s -> dcontent_display c = s) /\
  (forall cs s, dreads_all cs s -> flat_map (fun x => dcontent_display (l_val x)) cs = s).
Proof.
  split.
  - intros c s H. induction H using dreads_mind with
      (P0 := fun cs s _ => flat_map (fun x => dcontent_display (l_val x)) cs = s); auto.
    + cbn. destruct o as [->|[[i ->]|[[n ->]|[d ->]]]]; reflexivity.
    + cbn [flat_map]. now rewrite IHdreads, IHdreads0.
  - intros cs s H. induction H using dreads_all_mind with
      (P := fun c s _ => dcontent_display c = s); auto.
    + cbn. destruct o as [->|[[i ->]|[[n ->]|[d ->]]]]; reflexivity.
    + cbn [flat_map]. now rewrite IHdreads_all, IHdreads_all0.
Qed.

Lemma reads_display i s : reads i s -> inline_display i = s.
Proof.
  destruct 1 as [t|t|t|k|l t H|k cs s H]; auto.
  - apply (proj1 dreads_display) in H. exact H.
  - apply (proj2 dreads_display) in H. exact H.
Qed.

Lemma reads_all_display c s : reads_all c s -> container_display c = s.
Proof.
  induction 1 as [|c cs s s' H _ IH]; auto. unfold container_display in *. cbn [flat_map].
  now rewrite IH, (reads_display _ _ H).
Qed.

Lemma def_get_found pre x post s :
  reads_all (l_val (td_term (l_val x))) s ->
  (forall y, In y pre -> exists s', reads_all (l_val (td_term (l_val y))) s' /\ s' <> s) ->
  def_get (pre ++ x :: post) s = Some (td_defs (l_val x)).
Proof.
  intros Hx Hpre. unfold def_get. induction pre as [|y pre IH]; cbn [app find].
  - rewrite (reads_all_display _ _ Hx), str_eqb_refl. reflexivity.
  - destruct (Hpre y (or_introl eq_refl)) as (s' & Hs & Hd).
    rewrite (reads_all_display _ _ Hs). apply str_eqb_neq in Hd. rewrite Hd.
    apply IH. intros z Hz. apply Hpre. now right.
Qed.

Lemma def_get_none d s :
  (forall y, In y d -> exists s', reads_all (l_val (td_term (l_val y))) s' /\ s' <> s) ->
  def_get d s = None.
Proof.
  unfold def_get. induction d as [|y d IH]; intro H; cbn [find]; auto.
  destruct (H y (or_introl eq_refl)) as (s' & Hs & Hd).
  rewrite (reads_all_display _ _ Hs). apply str_eqb_neq in Hd. rewrite Hd.
  apply IH. intros z Hz. apply H. now right.
Qed.

(** * Tables built by [Table::new] and parsed tables *)

Lemma cellpos_eqb_spec a b : Bool.reflect (a = b) (cellpos_eqb a b).
Proof. apply Bool.iff_reflect. symmetry. apply cellpos_eqb_eq. Qed.

Lemma cells_insert_keys k v m : forall x, In x (map fst (cells_insert k v m)) <-> x = k \/ In x (map fst m).
Proof.
  induction m as [|[k' v'] m IH]; intro x; cbn [cells_insert map fst In].
  - intuition.
  - destruct (cellpos_eqb_spec k k') as [->|]; cbn [map fst In]; [intuition|]. rewrite IH. intuition.
Qed.

Lemma cells_insert_nodup k v m : NoDup (map fst m) -> NoDup (map fst (cells_insert k v m)).
Proof.
  induction m as [|[k' v'] m IH]; cbn [cells_insert map fst]; intro H.
  - constructor; auto.
  - inversion H as [|? ? H1 H2]; subst. destruct (cellpos_eqb_spec k k') as [->|N]; cbn [map fst];
      constructor; auto. rewrite cells_insert_keys. intros [E|E]; auto.
Qed.

Lemma cells_collect_nodup l : NoDup (map fst (cells_collect l)).
Proof.
  unfold cells_collect. induction l as [|[k v] l IH] using rev_ind; cbn; [constructor|].
  rewrite fold_left_app. cbn. now apply cells_insert_nodup.
Qed.

Lemma fold_max_bound {A} (f : A -> nat) l : forall a,
  a <= fold_left (fun a x => Nat.max a (f x)) l a /\
  forall x, In x l -> f x <= fold_left (fun a x => Nat.max a (f x)) l a.
Proof.
  induction l as [|y l IH]; intro a; cbn [fold_left].
  - split; [lia|]. intros x [].
  - destruct (IH (Nat.max a (f y))) as [I1 I2]. split; [lia|]. intros x [->|H]; [lia | auto].
Qed.

Lemma table_new_wf l c : is_map (table_new l c) /\ counts_ok (table_new l c).
Proof.
  split; [exact (cells_collect_nodup l)|].
  intros i j [x H]. unfold at_ in H. cbn [table_new t_cells t_row_cnt t_col_cnt] in *.
  pose proof (proj2 (fold_max_bound (fun kv : cellpos * located cell => cp_row (fst kv) + 1) (cells_collect l) 0) _ H) as H1.
  pose proof (proj2 (fold_max_bound (fun kv : cellpos * located cell => cp_col (fst kv) + 1) (cells_collect l) 0) _ H) as H2.
  cbn [fst cp_row cp_col] in *. lia.
Qed.

Lemma parsed_table up dp input rest p r t :
  ModelBlock.parse_page up dp input = ModelComb.Ok rest p ->
  In (r, SpecTree.NBlock (BTable t)) (SpecTree.elements p) ->
  is_map t /\ counts_ok t /\ rows_filled t.
Proof.
  intros Hp Hin. destruct (claim_table_cells up dp input rest p r t Hp Hin) as (M & H & _).
  split; [exact M|]. split.
  - intros i j Hc. destruct (H i j Hc) as (H1 & H2 & _). auto.
  - intros i j j' Hc L. destruct (H i j Hc) as (_ & _ & K). apply (K j'). lia.
Qed.

Lemma label_initial l q lower : (q < 4294967296)%N -> letters lower l ->
  comes_before l (pos_to_alphabet q lower) -> exists p, (p < q)%N /\ pos_to_alphabet p lower = l.
Proof.
  intros Hq Hl Hb. destruct (label_be q lower Hq) as [Lq Vq].
  pose proof Hl as Hl'. apply letters_letter in Hl' as [_ Hf]. apply letters_letter in Lq as [_ Lq].
  pose proof Hb as Hv. apply (comes_before_value (base_of lower)) in Hv; auto. rewrite Vq in Hv.
  destruct (label_onto lower l Hl) as (p & Hp & E); [lia|]. exists p. split; auto.
  rewrite <- E in Hb. now apply label_order in Hb.
Qed.
