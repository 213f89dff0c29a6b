(** The text of a literal: lines, indentation, quotation marks. *)
From Coq Require Import Lia Arith.
From Verif Require Import Base ModelSpan ModelLink ModelBlock ModelElem ModelMacro SpecTree SpecVw SpecMacro ProofBase.
From Verif Require ProofElem2 ProofEnv ProofVw ProofWhite ProofMacro ProofRound11.
Local Open Scope nat_scope.

Lemma destruct_last {A} (l : list A) : l = [] \/ exists l' x, l = l' ++ [x].
Proof. destruct l as [|a l]; [now left|right]. destruct (@exists_last _ (a :: l)) as (l' & x & E); [discriminate|]. eauto. Qed.

(** * One line *)

Lemma blanks_blank w : blanks w -> blank w.
Proof.
  intro H. induction H as [|b w Hb H IH]; [constructor|]. unfold blank in *.
  change (b :: w) with ([b] ++ w). apply (thin_drop [b]); [|exact IH].
  destruct Hb as [-> | ->]; vm_compute; tauto.
Qed.
Lemma trim_start_line l : line_ok l -> str_trim_start (line_text l) = sl_rest l.
Proof. intros (B & V & N & _). eapply ProofVw.trim_start_unique; [reflexivity|exact V|apply blanks_blank, B|exact N]. Qed.
Lemma indent_line l : line_ok l -> line_indent (line_text l) = length (sl_blanks l).
Proof. intro H. unfold line_indent. rewrite trim_start_line by exact H. unfold line_text. rewrite app_length. lia. Qed.
Lemma blank_line_true l : line_ok l -> sl_rest l = [] -> blank_line (line_text l) = true.
Proof. intros H E. unfold blank_line, str_trim. rewrite trim_start_line, E by exact H. reflexivity. Qed.
Lemma blank_line_false l : line_ok l -> sl_rest l <> [] -> blank_line (line_text l) = false.
Proof.
  intros H E. unfold blank_line, str_trim. rewrite trim_start_line by exact H.
  destruct (str_trim_end (sl_rest l)) eqn:T; [|reflexivity]. exfalso.
  destruct (ProofVw.trim_end_spec (sl_rest l)) as (w & Ew & Hw & _). rewrite T in Ew. cbn [app] in Ew.
  destruct H as (_ & _ & N & _). apply N. rewrite Ew in *. now apply ProofVw.blank_starts.
Qed.
Lemma blanks_in w b : blanks w -> In b w -> b = x20 \/ b = x09.
Proof. intros H. unfold blanks in H. rewrite Forall_forall in H. apply H. Qed.
Lemma line_no_lf l : line_ok l -> ~ In x0a (line_text l).
Proof. intros (B & _ & _ & N & _) I. apply in_app_or in I as [I|I]; [|tauto]. destruct (blanks_in _ _ B I); discriminate. Qed.
Lemma line_no_cr l : line_ok l -> ~ In x0d (line_text l).
Proof. intros (B & _ & _ & _ & N) I. apply in_app_or in I as [I|I]; [|tauto]. destruct (blanks_in _ _ B I); discriminate. Qed.
Lemma strip_cr_id l : ~ In x0d l -> strip_cr l = l.
Proof.
  intro N. unfold strip_cr. destruct (rev l) as [|b r] eqn:E; [reflexivity|].
  assert (I : In b l) by (apply in_rev; rewrite E; now left). destruct b; try reflexivity. contradiction.
Qed.

(** * The lines of a text *)

Lemma str_lines_of_id ps : Forall (fun p => ~ In x0d p) ps ->
  str_lines_of ps = ps \/ exists qs, ps = qs ++ [[]] /\ str_lines_of ps = qs.
Proof.
  induction 1 as [|p ps N F IH]; [left; reflexivity|]. destruct ps as [|p2 ps].
  - destruct p as [|b p]; [right; exists []; split; reflexivity|left; reflexivity].
  - change (str_lines_of (p :: p2 :: ps)) with (strip_cr p :: str_lines_of (p2 :: ps)). rewrite (strip_cr_id p N).
    destruct IH as [-> | (qs & E & ->)]; [left; reflexivity|]. right. exists (p :: qs). rewrite E. split; reflexivity.
Qed.
Lemma lines_of_text ls : ls <> [] -> Forall line_ok ls ->
  str_lines (text_of ls) = map line_text ls \/
  exists ls' l, ls = ls' ++ [l] /\ line_text l = [] /\ str_lines (text_of ls) = map line_text ls'.
Proof.
  intros Ne F. unfold str_lines, text_of. rewrite ProofElem2.split_on_join.
  - destruct (str_lines_of_id (map line_text ls)) as [H|(qs & E & ->)]; [|left; exact H|].
    + apply Forall_map. eapply Forall_impl; [|exact F]. exact line_no_cr.
    + right. destruct (@exists_last _ ls Ne) as (ls' & l & ->). rewrite map_app in E. apply app_inj_tail in E as [E1 E2].
      exists ls', l. auto.
  - intro H. apply map_eq_nil in H. contradiction.
  - apply Forall_map. eapply Forall_impl; [|exact F]. exact line_no_lf.
Qed.

(** * Which lines stay *)

Lemma move_back_stop blank e k : k <= e -> blank k = false -> (forall i, k < i <= e -> blank i = true) -> move_back blank e = k.
Proof.
  induction e as [|e IH]; intros L Hk Hb; cbn [move_back]; [lia|].
  destruct (Nat.eq_dec k (S e)) as [->|Ne]; [now rewrite Hk|]. rewrite Hb by lia. apply IH; auto; [lia|]. intros i Hi. apply Hb. lia.
Qed.
Lemma move_on_stop blank e k f : forall s, s <= k -> k <= e -> k - s < f -> blank k = false -> (forall i, s <= i < k -> blank i = true) -> move_on f blank e s = k.
Proof.
  induction f as [|f IH]; intros s L1 L2 L3 Hk Hb; [lia|]. cbn [move_on].
  destruct (Nat.eq_dec s k) as [->|Ne]; [rewrite Hk, andb_false_r; reflexivity|].
  rewrite Hb by lia. destruct (s <=? e) eqn:Q; [|apply Nat.leb_gt in Q; lia]. cbn [andb]. apply IH; auto; try lia. intros i Hi. apply Hb. lia.
Qed.
Lemma content_lines_mid B M A : Forall (fun l => blank_line l = true) B -> Forall (fun l => blank_line l = true) A ->
  (exists a r, M = a :: r /\ blank_line a = false) -> (exists a r, M = r ++ [a] /\ blank_line a = false) ->
  content_lines (B ++ M ++ A) = Some M.
Proof.
  intros HB HA (a & r & E1 & Ha) (z & r' & E2 & Hz).
  rewrite Forall_forall in HB, HA.
  assert (Lm : length M = S (length r')) by (rewrite E2, app_length; cbn; lia).
  set (ls := B ++ M ++ A). assert (Ll : length ls = length B + length M + length A) by (unfold ls; rewrite !app_length; lia).
  unfold content_lines. destruct ls as [|l0 ls0] eqn:El; [cbn in Ll; lia|]. rewrite <- El in *. clear El l0 ls0.
  assert (N1 : nth (length B) ls [] = a).
  { unfold ls. rewrite app_nth2 by lia. rewrite Nat.sub_diag, E1. reflexivity. }
  assert (N2 : nth (length B + length r') ls [] = z).
  { unfold ls. rewrite app_nth2 by lia. replace (length B + length r' - length B) with (length r') by lia. rewrite E2, <- app_assoc.
    rewrite app_nth2 by lia. rewrite Nat.sub_diag. reflexivity. }
  rewrite (move_back_stop _ _ (length B + length r')).
  - rewrite (move_on_stop _ _ (length B)).
    + destruct (_ <=? _) eqn:Q; [|apply Nat.leb_gt in Q; lia]. f_equal.
      replace (S (length B + length r') - length B) with (length M) by lia. unfold ls.
      rewrite skipn_app, skipn_all, Nat.sub_diag. cbn [skipn app]. rewrite firstn_app, firstn_all, Nat.sub_diag. cbn [firstn]. apply app_nil_r.
    + lia.
    + lia.
    + lia.
    + now rewrite N1.
    + intros i Hi. apply HB. unfold ls. rewrite app_nth1 by lia. apply nth_In. lia.
  - lia.
  - now rewrite N2.
  - intros i Hi. apply HA. unfold ls. rewrite app_nth2 by lia. rewrite app_nth2 by lia. apply nth_In. lia.
Qed.
Lemma content_of_text before mid after : laid_out before mid after ->
  content_lines (str_lines (text_of (before ++ mid ++ after))) = Some (map line_text mid).
Proof.
  intros (F & HB & HA & (a & r & E1 & Ha) & (z & r' & E2 & Hz)).
  assert (Fb : Forall line_ok before) by (apply Forall_app in F; tauto).
  assert (Fm : Forall line_ok mid) by (apply Forall_app in F as [_ F]; apply Forall_app in F; tauto).
  assert (Fa : Forall line_ok after) by (apply Forall_app in F as [_ F]; apply Forall_app in F; tauto).
  assert (Bl : forall ls, Forall line_ok ls -> Forall (fun l => sl_rest l = []) ls -> Forall (fun l => blank_line l = true) (map line_text ls)).
  { intros ls G1 G2. apply Forall_map. rewrite Forall_forall in *. intros x I. apply blank_line_true; auto. }
  assert (M1 : exists a r, map line_text mid = a :: r /\ blank_line a = false).
  { exists (line_text a), (map line_text r). rewrite E1. split; [reflexivity|]. apply blank_line_false; [|exact Ha].
    rewrite E1 in Fm. now inversion Fm. }
  assert (M2 : exists a r, map line_text mid = r ++ [a] /\ blank_line a = false).
  { exists (line_text z), (map line_text r'). rewrite E2, map_app. split; [reflexivity|]. apply blank_line_false; [|exact Hz].
    rewrite E2 in Fm. apply Forall_app in Fm as [_ Fm]. now inversion Fm. }
  destruct (lines_of_text (before ++ mid ++ after)) as [-> | (ls' & l & E & El & ->)].
  - rewrite E1. intro H. apply app_eq_nil in H as [_ H]. discriminate.
  - exact F.
  - rewrite !map_app. apply content_lines_mid; auto.
  - destruct (destruct_last after) as [-> | (after' & l' & ->)].
    + exfalso. rewrite app_nil_r, E2, app_assoc in E. apply app_inj_tail in E as [_ <-].
      apply Hz. unfold line_text in El. apply app_eq_nil in El. tauto.
    + rewrite !app_assoc in E. apply app_inj_tail in E as [<- _]. rewrite <- app_assoc, !map_app.
      apply content_lines_mid; auto. apply Forall_app in HA, Fa. apply Bl; tauto.
Qed.

(** * The indentation *)

Lemma min_indent_least ls m : ls <> [] -> Forall line_ok ls -> least_indent ls m -> min_indent (map line_text ls) = m.
Proof.
  intros Ne F [H1 (x & I & ->)].
  assert (E : forall l r, Forall line_ok (l :: r) -> (forall y, In y (l :: r) -> min_indent (map line_text (l :: r)) <= length (sl_blanks y)) /\
     exists y, In y (l :: r) /\ min_indent (map line_text (l :: r)) = length (sl_blanks y)).
  { intros l r. revert l. induction r as [|l2 r IH]; intros l G.
    - inversion G as [|? ? G1 _]; subst. cbn [map min_indent]. rewrite indent_line by exact G1. split.
      + intros y [-> |[]]. lia.
      + exists l. split; [now left|reflexivity].
    - inversion G as [|? ? G1 G2]; subst. destruct (IH l2 G2) as [A1 (y & Iy & A2)].
      change (min_indent (map line_text (l :: l2 :: r))) with (Nat.min (line_indent (line_text l)) (min_indent (map line_text (l2 :: r)))).
      rewrite indent_line by exact G1. split.
      + intros w [-> | Iw]; [lia|]. specialize (A1 w Iw). lia.
      + destruct (Nat.le_gt_cases (length (sl_blanks l)) (min_indent (map line_text (l2 :: r)))) as [L|L].
        * exists l. split; [now left|lia].
        * exists y. split; [now right|lia]. }
  destruct ls as [|l r]; [contradiction|]. destruct (E l r F) as [A1 (y & Iy & A2)].
  pose proof (A1 x I). pose proof (H1 y Iy). lia.
Qed.
Lemma str_from_line m l : line_ok l -> m <= length (sl_blanks l) -> str_from m (line_text l) = Some (cut m l).
Proof.
  intros (B & V & _) L. unfold str_from, line_text, cut. rewrite app_length.
  destruct (_ <? m) eqn:Q; [apply Nat.ltb_lt in Q; lia|]. rewrite skipn_app.
  replace (m - length (sl_blanks l)) with 0 by lia. cbn [skipn].
  destruct (skipn m (sl_blanks l) ++ sl_rest l) as [|b t] eqn:E; [reflexivity|].
  assert (C : is_cont b = false); [|rewrite C, andb_false_r; reflexivity].
  destruct (skipn m (sl_blanks l)) as [|b' w] eqn:Es.
  - exact (ProofEnv.valid_head _ _ _ V E).
  - injection E as -> _. assert (I : In b (sl_blanks l)) by (rewrite <- (firstn_skipn m (sl_blanks l)), Es; apply in_or_app; right; now left).
    destruct (blanks_in _ _ B I) as [-> | ->]; reflexivity.
Qed.
Lemma slice_lines m ls : Forall line_ok ls -> (forall l, In l ls -> m <= length (sl_blanks l)) -> ModelMacro.slice_all m (map line_text ls) = Some (map (cut m) ls).
Proof.
  induction 1 as [|l ls H F IH]; intro L; [reflexivity|]. cbn [map ModelMacro.slice_all].
  rewrite str_from_line by (auto; apply L; now left). rewrite IH by (intros x I; apply L; now right). reflexivity.
Qed.
Theorem arrange_raw before mid after : laid_out before mid after -> arrange true (text_of (before ++ mid ++ after)) = MText (text_of mid).
Proof. intro H. unfold arrange. now rewrite (content_of_text _ _ _ H). Qed.
Theorem arrange_cut before mid after m : laid_out before mid after -> least_indent mid m ->
  arrange false (text_of (before ++ mid ++ after)) = MText (join [x0a] (map (cut m) mid)).
Proof.
  intros H K. unfold arrange. rewrite (content_of_text _ _ _ H).
  destruct H as (F & _ & _ & (a & r & E & _) & _). apply Forall_app in F as [_ F]. apply Forall_app in F as [F _].
  rewrite (min_indent_least mid m) by (auto; now rewrite E). rewrite slice_lines; [reflexivity|exact F|apply K].
Qed.

(** * The quotation marks *)

Lemma find_byte_app c a b : ~ In c a -> find_byte c (a ++ c :: b) = Some (length a).
Proof.
  induction a as [|x a IH]; intro N; cbn [app find_byte length].
  - now rewrite (proj2 (beqb_eq c c) eq_refl).
  - destruct (beqb x c) eqn:E; [apply beqb_eq in E; subst; exfalso; apply N; now left|]. rewrite IH; [reflexivity|]. intro I. apply N. now right.
Qed.
Lemma rfind_byte_app c a b : ~ In c b -> rfind_byte c (a ++ c :: b) = Some (length a).
Proof.
  intro N. unfold rfind_byte. rewrite rev_app_distr. cbn [rev]. rewrite <- app_assoc. cbn [app].
  rewrite find_byte_app by (now rewrite <- in_rev). f_equal. rewrite app_length, rev_length. cbn [length]. lia.
Qed.
Lemma form_quotes pre post : literal_form pre post -> ~ In x22 pre /\ ~ In x22 post.
Proof.
  assert (R : forall n, ~ In x22 (repeat x23 n)) by (intros n I; apply repeat_spec in I; discriminate).
  intros [|n| |n]; split; cbn; try tauto; try (intros [H|H]; [discriminate|exact (R _ H)]); try (exact (R n)).
  - intros [H|[]]. discriminate.
  - intros [H|[H|H]]; try discriminate. exact (R _ H).
Qed.
Lemma literal_trim pre s post : literal_form pre post -> str_trim (literal pre s post) = literal pre s post.
Proof.
  intro F.
  assert (N1 : ~ starts_white (literal pre s post)).
  { unfold literal. destruct F; cbn [app]; apply ProofMacro.ascii_no_white_start;
      try (apply Nat.ltb_lt; reflexivity); unfold white_char, white_chars; cbn; intuition discriminate. }
  assert (N2 : ~ ends_white (literal pre s post)).
  { unfold literal. assert (G : exists u b, pre ++ [x22] ++ s ++ [x22] ++ post = u ++ [b] /\ (b = x22 \/ b = x23)).
    { assert (K : forall n, exists u b, [x22] ++ repeat x23 n = u ++ [b] /\ (b = x22 \/ b = x23)).
      { intro n. destruct (destruct_last (repeat x23 n)) as [-> | (u & b & E)]; [exists [], x22; auto|].
        exists (x22 :: u), b. rewrite E. split; [reflexivity|]. right. eapply repeat_spec. rewrite E. apply in_or_app. right. now left. }
      assert (P : exists n, post = repeat x23 n) by (destruct F as [|n| |n]; [exists 0|exists n|exists 0|exists n]; reflexivity).
      destruct P as [n ->]. destruct (K n) as (u & b & E & Hb). exists (pre ++ [x22] ++ s ++ u), b. rewrite E, !app_assoc. auto. }
    destruct G as (u & b & -> & Hb). apply ProofMacro.ascii_no_white_end.
    - destruct Hb as [-> | ->]; apply Nat.ltb_lt; reflexivity.
    - destruct Hb as [-> | ->]; unfold white_char, white_chars; cbn; intuition discriminate. }
  unfold str_trim. rewrite ProofRound11.trim_start_id by exact N1. now apply ProofMacro.trim_end_id.
Qed.
Theorem input_literal raw pre s post : literal_form pre post -> input_to_string raw (literal pre s post) = arrange raw s.
Proof.
  intro F. unfold input_to_string. rewrite (literal_trim _ _ _ F).
  assert (C : starts_with [x22] (literal pre s post) || starts_with (bs "r") (literal pre s post)
     || starts_with [x62; x22] (literal pre s post) || starts_with (bs "br") (literal pre s post) = true) by (destruct F; reflexivity).
  rewrite C. destruct (form_quotes _ _ F) as [N1 N2]. unfold literal.
  rewrite (find_byte_app x22 pre (s ++ [x22] ++ post) N1 : find_byte x22 (pre ++ [x22] ++ s ++ [x22] ++ post) = _).
  replace (pre ++ [x22] ++ s ++ [x22] ++ post) with ((pre ++ [x22] ++ s) ++ x22 :: post) by (now rewrite <- !app_assoc).
  rewrite rfind_byte_app by exact N2. rewrite !app_length. cbn [length].
  destruct (_ <? _) eqn:Q; [apply Nat.ltb_lt in Q; lia|]. f_equal.
  replace (length pre + (1 + length s) - S (length pre)) with (length s) by lia.
  replace ((pre ++ [x22] ++ s) ++ x22 :: post) with ((pre ++ [x22]) ++ s ++ x22 :: post) by (now rewrite <- !app_assoc).
  replace (S (length pre)) with (length (pre ++ [x22])) by (rewrite app_length; cbn; lia).
  rewrite skipn_app, skipn_all, Nat.sub_diag. cbn [skipn app]. rewrite firstn_app, firstn_all, Nat.sub_diag. cbn [firstn]. apply app_nil_r.
Qed.

(** * Blank texts *)

Lemma move_on_all blank e f : forall s, s <= S e -> S e - s <= f -> (forall i, s <= i <= e -> blank i = true) -> move_on f blank e s = S e.
Proof.
  induction f as [|f IH]; intros s L1 L2 Hb; cbn [move_on]; [lia|].
  destruct (s <=? e) eqn:Q; [|apply Nat.leb_gt in Q; cbn [andb]; lia]. apply Nat.leb_le in Q. rewrite Hb by lia. cbn [andb]. apply IH; try lia. intros i Hi. apply Hb. lia.
Qed.
Lemma move_back_all blank e : (forall i, i <= e -> blank i = true) -> move_back blank e = 0.
Proof. induction e as [|e IH]; intro H; cbn [move_back]; [reflexivity|]. rewrite H by lia. apply IH. intros i Hi. apply H. lia. Qed.
Theorem arrange_blank raw ls : Forall line_ok ls -> Forall (fun l => sl_rest l = []) ls ->
  arrange raw (text_of ls) = if match text_of ls with [] => true | _ => false end then MText [] else MError.
Proof.
  intros F B. destruct (text_of ls) as [|b t] eqn:E; [destruct raw; reflexivity|]. rewrite <- E.
  assert (Ne : ls <> []) by (intros ->; discriminate).
  assert (H : exists xs, xs <> [] /\ Forall (fun l => blank_line l = true) xs /\ str_lines (text_of ls) = xs).
  { assert (Bl : forall l, In l ls -> blank_line (line_text l) = true) by (rewrite Forall_forall in *; intros l I; apply blank_line_true; auto).
    destruct (lines_of_text ls Ne F) as [H|(ls' & l & E1 & E2 & H)].
    - exists (map line_text ls). split; [intro K; apply map_eq_nil in K; contradiction|]. split; [|exact H]. apply Forall_map, Forall_forall. exact Bl.
    - exists (map line_text ls'). split; [|split; [|exact H]].
      + intro K. apply map_eq_nil in K. subst ls'. cbn [app] in E1. subst ls. unfold text_of in E. cbn in E. congruence.
      + apply Forall_map, Forall_forall. intros x I. apply Bl. rewrite E1. apply in_or_app. now left. }
  destruct H as (xs & Nx & Fx & Ex). unfold arrange. rewrite Ex. unfold content_lines. destruct xs as [|x xs]; [contradiction|].
  set (ys := x :: xs) in *. rewrite Forall_forall in Fx.
  assert (All : forall i, i <= length ys - 1 -> blank_line (nth i ys []) = true) by (intros i Hi; apply Fx, nth_In; cbn in *; lia).
  rewrite move_back_all by exact All. rewrite (move_on_all _ 0 1 0) by (try lia; intros i Hi; apply All; lia). reflexivity.
Qed.
