(** Unicode white space and characters. *)
From Coq Require Import Lia Arith.
From Verif Require Import Base ModelSpan ModelAst ModelTable ModelLink ModelBlock ModelElem ModelVimwiki
  SpecTree SpecElem SpecVw ProofBase ProofEnv ProofClaims2.

(** * Characters *)

Definition char_len (b : byte) : nat :=
  let n := byte_n b in
  if n <? 128 then 1 else if n <? 224 then 2 else if n <? 240 then 3 else 4.
Lemma char_len_ok c b r : utf8_char c -> c = b :: r -> length c = char_len b.
Proof.
  unfold char_len. intros H ->. inversion H; subst; unfold in_range in *; cbn [length];
  repeat match goal with |- context [?x <? ?y] => destruct (Nat.ltb_spec x y) end; lia.
Qed.
Lemma char_prefix c c' x y : utf8_char c -> utf8_char c' -> c ++ x = c' ++ y -> c = c' /\ x = y.
Proof.
  intros H H' E. pose proof (char_ne _ H). pose proof (char_ne _ H').
  destruct c as [|b r]; [easy|]. destruct c' as [|b' r']; [easy|].
  assert (b = b') by (cbn in E; congruence). subst b'.
  apply app_inj_len; auto.
  now rewrite (char_len_ok _ b r H eq_refl), (char_len_ok _ b r' H' eq_refl).
Qed.

Lemma white_utf8 w : white_char w -> utf8_char w.
Proof.
  intro H. unfold white_char, white_chars in H.
  repeat (destruct H as [<-|H]); [..|destruct H];
  first [ apply U1; unfold in_range; cbv; lia
        | apply U2; unfold tail_byte, in_range; cbv; lia
        | apply U3b; unfold tail_byte, in_range; cbv; lia ].
Qed.
Lemma white_ne w : white_char w -> w <> [].
Proof. intro H. apply char_ne. now apply white_utf8. Qed.

Lemma valid_cut a b : valid_utf8 (a ++ b) ->
  match b with [] => True | x :: _ => is_cont x = false end -> valid_utf8 a /\ valid_utf8 b.
Proof.
  intros (cs & Hcs & E) Hb. revert a E.
  induction Hcs as [|c cs Hc Hcs IH]; intros a E.
  - apply app_eq_nil in E as [-> ->]. split; apply valid_nil.
  - cbn [concat] in E. destruct a as [|x a].
    + split; [apply valid_nil|]. cbn in E. subst b. exists (c :: cs). auto.
    + destruct (Nat.le_gt_cases (length c) (length (x :: a))) as [L|L].
      * assert (exists a', x :: a = c ++ a') as [a' Ea].
        { exists (skipn (length c) (x :: a)).
          assert (firstn (length c) ((x :: a) ++ b) = firstn (length c) (c ++ concat cs)) as F by now rewrite E.
          rewrite firstn_app, firstn_app, Nat.sub_diag, firstn_all in F. cbn [firstn] in F.
          rewrite app_nil_r in F. replace (length c - length (x :: a)) with 0 in F by lia.
          cbn [firstn] in F. rewrite app_nil_r in F. rewrite <- F at 1. now rewrite firstn_skipn. }
        rewrite Ea in *. rewrite <- app_assoc in E. apply app_inv_head in E.
        destruct (IH a' E) as [V V']. split; auto. apply valid_app; auto. now apply valid_char.
      * exfalso. destruct b as [|y b].
        { rewrite app_nil_r in E. rewrite E, app_length in L. lia. }
        assert (nth_error c (length (x :: a)) = Some y) as N.
        { assert (nth_error ((x :: a) ++ y :: b) (length (x :: a)) = nth_error (c ++ concat cs) (length (x :: a))) as F by now rewrite E.
          rewrite nth_error_app2, Nat.sub_diag, nth_error_app1 in F by (auto; lia). symmetry. exact F. }
        cbn [length] in N, L.
        assert (C : is_cont y = true).
        { clear - Hc N. unfold is_cont. destruct c as [|c0 c]; [now destruct (length a)|].
          cbn [nth_error] in N. generalize dependent (length a). intros k N.
          assert (T : tail_byte y).
          { inversion Hc; subst; unfold tail_byte, in_range in *;
            destruct k as [|[|[|k]]]; cbn [nth_error] in N;
            try (injection N as <-; lia); try discriminate; destruct k; discriminate. }
          unfold tail_byte, in_range in T. apply andb_true_intro; split; [apply Nat.leb_le|apply Nat.ltb_lt]; lia. }
        rewrite C in Hb. discriminate.
Qed.
Lemma valid_white_end a w : white_char w -> valid_utf8 (a ++ w) -> valid_utf8 a.
Proof.
  intros Hw H. apply valid_cut in H; [easy|].
  destruct w as [|x w'] eqn:E; [easy|]. apply (char_head _ x w' (white_utf8 _ Hw) eq_refl).
Qed.

(** * [uws_len] *)

Lemma uws_len_white w r : white_char w -> uws_len (w ++ r) = length w.
Proof.
  intro H. unfold white_char, white_chars in H.
  repeat (destruct H as [<-|H]); [..|destruct H]; reflexivity.
Qed.
Lemma uws_len_rev_white w r : white_char w -> uws_len_rev (rev w ++ r) = length w.
Proof.
  intro H. unfold white_char, white_chars in H.
  repeat (destruct H as [<-|H]); [..|destruct H]; reflexivity.
Qed.
Lemma white_b w : existsb (str_eqb w) white_chars = true -> white_char w.
Proof.
  intro H. apply existsb_exists in H as (x & Hx & E). apply str_eqb_eq in E. now subst.
Qed.
Ltac in_white := apply white_b; reflexivity.
Lemma uws_len_spec l : uws_len l = 0 \/ exists w r, white_char w /\ l = w ++ r /\ uws_len l = length w.
Proof.
  assert (Y : forall w r, l = w ++ r -> white_char w -> uws_len l = 0 \/
     exists w r, white_char w /\ l = w ++ r /\ uws_len l = length w).
  { intros w r -> Hw. right. exists w, r. now rewrite uws_len_white. }
  destruct l as [|a l]; [now left|].
  destruct a; try (left; reflexivity);
  first [ refine (Y [_] l eq_refl _); in_white | idtac ];
  (destruct l as [|b l]; [now left|]; destruct b; try (left; reflexivity));
  first [ refine (Y [_; _] l eq_refl _); in_white | idtac ];
  (destruct l as [|c l]; [now left|]; destruct c; try (left; reflexivity));
  refine (Y [_; _; _] l eq_refl _); in_white.
Qed.

Definition after80 (k : nat) (l : str) : nat := match l with x80 :: xe2 :: _ => k | _ => 0 end.
Lemma after80_spec k l : after80 k l = 0 \/ exists r, l = x80 :: xe2 :: r /\ after80 k l = k.
Proof.
  destruct l as [|b l]; [now left|]. destruct b; try (left; reflexivity).
  destruct l as [|c l]; [now left|]. destruct c; try (left; reflexivity).
  right. now exists l.
Qed.
Lemma uws_len_rev_spec l : uws_len_rev l = 0 \/ exists w r, white_char w /\ l = rev w ++ r /\ uws_len_rev l = length w.
Proof.
  assert (Y : forall w r, l = rev w ++ r -> white_char w -> uws_len_rev l = 0 \/
     exists w r, white_char w /\ l = rev w ++ r /\ uws_len_rev l = length w).
  { intros w r -> Hw. right. exists w, r. now rewrite uws_len_rev_white. }
  destruct l as [|a l]; [now left|].
  destruct a;
  first [ refine (Y [_] l eq_refl _); in_white
        | (destruct (after80_spec 0 l) as [E|(r & -> & E)]; left; exact E)
        | (destruct (after80_spec 3 l) as [E|(r & -> & E)];
           [left; exact E|refine (Y [_; _; _] r eq_refl _); in_white])
        | idtac ];
  (destruct l as [|b l]; [now left|]; destruct b; try (left; reflexivity);
   first [ refine (Y [_; _] l eq_refl _); in_white | idtac ];
   (destruct l as [|c l]; [now left|]; destruct c; try (left; reflexivity));
   refine (Y [_; _; _] l eq_refl _); in_white).
Qed.
