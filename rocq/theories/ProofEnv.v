(** UTF-8 facts, and the environment in which the parser contracts are used. *)
From Verif Require Import Base ModelSpan ModelComb ModelAst ModelTable ModelLink ModelInline ModelBlock
  SpecDoc SpecBlock SpecTree ProofBase ProofBytes ProofContract ProofLink ProofFence ProofPage ProofTree.

(** * UTF-8 *)

Lemma valid_nil : valid_utf8 [].
Proof. exists []. auto. Qed.
Lemma valid_app a b : valid_utf8 a -> valid_utf8 b -> valid_utf8 (a ++ b).
Proof.
  intros (ca & Ha & ->) (cb & Hb & ->). exists (ca ++ cb). split; [now apply Forall_app|]. now rewrite concat_app.
Qed.
Lemma valid_char c : utf8_char c -> valid_utf8 c.
Proof. intro H. exists [c]. split; [auto|]. cbn. now rewrite app_nil_r. Qed.

Lemma char_ne c : utf8_char c -> c <> [].
Proof. destruct 1; discriminate. Qed.

(** An ASCII byte of a character is the whole character. *)
Lemma char_ascii c i b : utf8_char c -> nth_error c i = Some b -> is_ascii b = true -> i = 0 /\ c = [b].
Proof.
  unfold is_ascii. intros H E Hb. apply Nat.ltb_lt in Hb.
  destruct H; unfold tail_byte, in_range in *;
    repeat (destruct i as [|i]; cbn in E; [injection E as ->; first [now split | lia]|]); try discriminate E.
  all: now destruct i.
Qed.

Lemma char_head c b r : utf8_char c -> c = b :: r -> is_cont b = false.
Proof.
  unfold is_cont. intros H ->. inversion H; subst; unfold tail_byte, in_range in *;
  apply andb_false_iff; rewrite Nat.leb_gt, Nat.ltb_ge; lia.
Qed.

Lemma valid_head l b r : valid_utf8 l -> l = b :: r -> is_cont b = false.
Proof.
  intros (cs & H & ->) E. destruct H as [|c cs Hc Hcs]; [discriminate|].
  destruct c as [|x c]; [now apply char_ne in Hc|]. cbn in E. injection E as -> _. eapply char_head; eauto.
Qed.

(** Around an ASCII byte the text can be cut. *)
Lemma valid_cut l i b :
  valid_utf8 l -> nth_error l i = Some b -> is_ascii b = true ->
  valid_utf8 (firstn i l) /\ valid_utf8 (skipn i l) /\ valid_utf8 (firstn (S i) l) /\ valid_utf8 (skipn (S i) l).
Proof.
  intros (cs & H & ->) E Hb. revert i E. induction H as [|c cs Hc Hcs IH]; intros i E; [now destruct i|].
  cbn [concat] in *. destruct (Nat.lt_ge_cases i (length c)) as [L|L].
  - rewrite nth_error_app1 in E by auto. destruct (char_ascii c i b Hc E Hb) as [-> ->].
    cbn [firstn skipn app]. assert (V : valid_utf8 (concat cs)) by (exists cs; auto).
    split; [exact valid_nil|]. split; [now apply (valid_app [b]); auto using valid_char|].
    split; [now apply valid_char | exact V].
  - rewrite nth_error_app2 in E by auto. destruct (IH _ E) as (I1 & I2 & I3 & I4).
    rewrite !firstn_app, !skipn_app. rewrite (firstn_all2 c), (firstn_all2 (n := S i) c) by lia.
    rewrite (skipn_all2 c), (skipn_all2 (n := S i) c) by lia.
    replace (S i - length c) with (S (i - length c)) by lia.
    repeat split; auto using valid_app, valid_char.
Qed.

Lemma boundary_0 l : valid_utf8 l -> boundary l 0.
Proof. intro H. split; [lia|]. split; [exact valid_nil | exact H]. Qed.
Lemma boundary_end l : valid_utf8 l -> boundary l (length l).
Proof. intro H. split; [lia|]. rewrite firstn_all, skipn_all. auto using valid_nil. Qed.
Lemma boundary_at l i b : valid_utf8 l -> nth_error l i = Some b -> is_ascii b = true -> boundary l i.
Proof.
  intros H E Hb. destruct (valid_cut l i b H E Hb) as (H1 & H2 & _).
  assert (i < length l) by (apply nth_error_Some; congruence). split; auto. lia.
Qed.
Lemma boundary_after l i b : valid_utf8 l -> nth_error l i = Some b -> is_ascii b = true -> boundary l (S i).
Proof.
  intros H E Hb. destruct (valid_cut l i b H E Hb) as (_ & _ & H1 & H2).
  assert (i < length l) by (apply nth_error_Some; congruence). split; auto.
Qed.

(** Text between two boundaries is UTF-8. *)
Lemma valid_uncut a b : valid_utf8 (a ++ b) -> valid_utf8 a -> valid_utf8 b.
Proof.
  intros Hab (ca & Ha & ->). revert Hab. induction Ha as [|c ca Hc Hca IH]; cbn [concat app]; auto.
  rewrite <- app_assoc. intro H. apply IH. clear IH Hca. revert H. generalize (concat ca ++ b) as r. intros r (cs & Hcs & E).
  destruct Hcs as [|c' cs Hc' Hcs]; cbn [concat] in E.
  - destruct c; [now apply char_ne in Hc | discriminate].
  - assert (Ec : c = c').
    { (* two characters that begin the same text are equal: the first byte gives the length *)
      destruct Hc, Hc'; cbn in E; unfold in_range, tail_byte in *;
        injection E; intros; subst; try reflexivity; exfalso; lia. }
    subst c'. apply app_inv_head in E. subst r. exists cs. auto.
Qed.

Lemma boundary_slice l i j : i <= j -> boundary l i -> boundary l j -> valid_utf8 (slice i j l).
Proof.
  intros L (Li & I1 & I2) (Lj & J1 & J2). apply (valid_uncut (firstn i l)); auto.
  replace (firstn i l ++ slice i j l) with (firstn j l); auto.
  unfold slice. rewrite <- (firstn_skipn i (firstn j l)). rewrite firstn_firstn, Nat.min_l by auto.
  now rewrite skipn_firstn_comm.
Qed.

(** * Panics *)

Lemma cut_at_text inner t : cut_at inner t -> text_cut inner t.
Proof.
  intros [(b & H1 & H2)|H]; [left|right; exact H]. exists b. split; auto.
  unfold seam_byte in H2. apply existsb_exists in H2 as (c & Hc & E). apply beqb_eq in E. now subst.
Qed.

Lemma ws_char_at cs p : Forall (fun x => In x ws_chars) cs -> 0 < p <= length (concat cs) ->
  exists a c b, cs = a ++ c :: b /\ In c ws_chars /\ length (concat a) < p <= length (concat a) + length c.
Proof.
  induction 1 as [|c cs Hc Hcs IH] in p |- *; cbn [concat]; intros Hp; [cbn in Hp; lia|].
  rewrite app_length in Hp. destruct (Nat.le_gt_cases p (length c)) as [L|L].
  - exists [], c, cs. cbn. split; auto. split; auto. lia.
  - destruct (IH (p - length c)) as (a & c' & b & -> & H1 & H2); [lia|].
    exists (c :: a), c', b. cbn [app concat]. rewrite app_length. split; auto. split; auto. lia.
Qed.

Lemma dedent_split inner lo hi n :
  dedent_line n (slice lo hi inner) = None -> split_space inner.
Proof.
  set (l := slice lo hi inner). unfold dedent_line, str_from, count_leading_uws.
  destruct (leading_uws_spec (length l) l (Nat.le_refl _)) as (L & (cs & Hcs & Ecs) & _). cbv zeta in *.
  set (c := leading_uws (length l) l) in *. set (p := Nat.min c n).
  assert (Lp : p <= c) by (unfold p; lia).
  replace (length l <? p) with false by (symmetry; apply Nat.ltb_ge; lia).
  destruct (skipn p l) as [|b r] eqn:E; [discriminate|].
  destruct ((0 <? p) && is_cont b) eqn:Hb; [|discriminate]. intros _.
  apply andb_true_iff in Hb as [Hp Hb]. apply Nat.ltb_lt in Hp.
  assert (Lc : length (concat cs) = c) by (rewrite Ecs, firstn_length; lia).
  destruct (ws_char_at cs p Hcs ltac:(lia)) as (a & w & b' & -> & Hw & L1).
  assert (El : l = concat a ++ w ++ concat b' ++ skipn c l).
  { rewrite <- (firstn_skipn c l) at 1. rewrite <- Ecs, concat_app. cbn [concat]. now rewrite <- !app_assoc. }
  assert (Hlo : lo <= length inner).
  { destruct (Nat.le_gt_cases lo (length inner)); auto. unfold l, slice in E.
    rewrite (skipn_all2 (n := lo)) in E by lia. rewrite firstn_nil, skipn_nil in E. discriminate. }
  assert (Hin : exists tl, skipn lo inner = l ++ tl).
  { exists (skipn (hi - lo) (skipn lo inner)). unfold l, slice. now rewrite firstn_skipn. }
  destruct Hin as [tl Htl].
  exists (lo + length (concat a)), w, (p - length (concat a)), b.
  split; auto. split.
  - apply starts_with_spec. exists (concat b' ++ skipn c l ++ tl).
    replace (lo + length (concat a)) with (length (concat a) + lo) by lia. rewrite <- skipn_skipn, Htl, El at 1.
    rewrite <- !app_assoc, skipn_app, skipn_all, Nat.sub_diag. reflexivity.
  - split; [lia|]. split; auto.
    replace (lo + length (concat a) + (p - length (concat a))) with (lo + p) by lia.
    rewrite <- nth_error_skipn, Htl. rewrite nth_error_app1 by (apply (f_equal (@length _)) in E; rewrite skipn_length in E; cbn in E; lia).
    rewrite <- (Nat.add_0_r p), <- nth_error_skipn, E. reflexivity.
Qed.

Section Env.
Variable uri_parse : str -> option uri.
Variable date_parse : str -> option date.
Variable input : str.

Definition panic_site : Prop := cut_link uri_parse input \/ bad_diary uri_parse input \/ split_space input.

Definition page_env : env.
Proof.
  refine (Env input uri_parse date_parse (soft_boundary input) _ _ _ panic_site _ _ _).
  - intro H. now apply boundary_0.
  - intros i b E Hb H. eapply boundary_at; eauto.
  - intros i b E Hb H. eapply boundary_after; eauto.
  - intros i t k j u H1 H2 H3 H4 _ H6 H7 H8 H9 H10. left. exists i, t, k, j, u.
    repeat (split; [solve [auto using cut_at_text]|]). now apply is_raw_scheme_spec.
  - intros lo hi body oa H1 H2 H3 H4. right. left.
    exists lo, hi, body, (match oa with Some a => anchor_to_fragment a | None => [] end).
    split; auto. split; auto. split; auto.
    destruct H3 as [->|(i & j & a & -> & H3)]; [now left|]. right. exists i, j, a. auto.
  - intros lo hi n _ H. right. right. eapply dedent_split; eauto.
Defined.

Theorem parse_page_sound :
  match parse_page uri_parse date_parse input with
  | Ok s p => sp_start s = length input /\ sp_end s = length input /\
              page_ok uri_parse date_parse input (soft_boundary input) p
  | Err => False
  | Panic => panic_site
  | OutOfFuel => False
  end.
Proof.
  apply (@page_contract page_env). cbn. intro H. now apply boundary_end.
Qed.

Lemma parse_page_ok s p :
  parse_page uri_parse date_parse input = Ok s p -> page_ok uri_parse date_parse input (soft_boundary input) p.
Proof. intro H. pose proof parse_page_sound as K. rewrite H in K. apply K. Qed.

Lemma parse_page_elements s p r n :
  parse_page uri_parse date_parse input = Ok s p -> In (r, n) (elements p) ->
  elem_ok uri_parse date_parse input (soft_boundary input) (r, n).
Proof.
  intros H Hin. apply parse_page_ok, page_elements in H. rewrite Forall_forall in H. now apply H.
Qed.

End Env.

Lemma split_wide input : valid_utf8 input -> split_space input -> wide_space input.
Proof.
  intros Hv (i & c & m & b & Hc & Hs & Hm & Hb & Hcont). exists i, c. split; auto. split; auto.
  destruct (Nat.le_gt_cases (length c) 1) as [L|L]; auto. exfalso.
  assert (m = 1) by lia. assert (length c = 1) by lia. subst m. destruct c as [|x [|]]; try discriminate.
  apply starts_with_spec in Hs as [r Er].
  assert (Hx : nth_error input i = Some x) by (rewrite <- (Nat.add_0_r i), <- nth_error_skipn, Er; reflexivity).
  assert (Ha : is_ascii x = true).
  { unfold ws_chars in Hc. repeat (destruct Hc as [Hc|Hc]; [try discriminate Hc; injection Hc as <-; reflexivity|]). destruct Hc. }
  destruct (boundary_after input i x Hv Hx Ha) as (_ & _ & Hsk).
  assert (Hne : exists r', skipn (S i) input = b :: r').
  { replace (i + 1) with (S i) in Hb by lia. rewrite <- (Nat.add_0_r (S i)), <- nth_error_skipn in Hb.
    destruct (skipn (S i) input); [discriminate|]. injection Hb as ->. eauto. }
  destruct Hne as [r' Er']. pose proof (valid_head _ _ _ Hsk Er'). congruence.
Qed.
