(** Reading back placeholders and quotations. *)
From Verif Require Import Base ModelSpan ModelComb ModelAst ModelTable ModelLink ModelInline ModelBlock ModelElem
  SpecDoc SpecBlock SpecTree SpecSpan SpecRound ProofBase ProofBytes ProofContract ProofPrim ProofInline ProofLink ProofText
  ProofBlock ProofFence ProofDefs ProofTable ProofList ProofPage ProofClaims2 ProofSpan ProofRound ProofRound2 ProofRound3.
Local Open Scope nat_scope.

(** * Placeholders *)

Lemma whole_nl a r : no_nl a -> no_cr_end a -> whole_line a (b_nl :: r).
Proof. intros. split; auto. split; [right; eauto|auto]. Qed.
Lemma value_run s t r : sees s (t ++ b_nl :: r) -> value_fine t -> placeholder_text s = Ok (mv (length t) s) t.
Proof.
  intros H (F1 & F2 & F3 & F4). unfold placeholder_text. apply (map_cow_run _ s t (b_nl :: r) H). unfold verify.
  rewrite (until_eol_run s t _ H) by now apply whole_nl. cbn [bind]. pose proof (sees_tk _ _ _ H) as T.
  destruct (is_only_whitespace (tk (length t) s)) eqn:E; [|reflexivity]. apply only_ws_spec in E; [|apply T].
  destruct T as [_ T]. rewrite T in E. contradiction.
Qed.

Lemma lead_nl t r : no_lead t -> nonblank_head (t ++ b_nl :: r).
Proof.
  intros H c q E. destruct t as [|x t]; cbn in E; injection E as <- _; [reflexivity|]. eapply H. reflexivity.
Qed.
Lemma tag_no w s l : sees s l -> starts_with w l = false -> tag w s = Err.
Proof. intros [_ <-]. apply tag_err. Qed.
Lemma sw_app w a r : no_nl w -> starts_with w (a ++ b_nl :: r) = starts_with w a.
Proof.
  intro N. revert a. induction w as [|c w IH]; intro a; [reflexivity|]. destruct a as [|x a]; cbn.
  - destruct (beqb_spec c b_nl) as [->|]; [exfalso; apply N; now left|reflexivity].
  - rewrite IH; [reflexivity|]. intro Hi. apply N. now right.
Qed.
Lemma sw_false w a : (forall r, a <> w ++ r) -> starts_with w a = false.
Proof. intro N. destruct (starts_with w a) eqn:E; auto. apply starts_with_spec in E as [r ->]. now apply N in E || (exfalso; now apply (N r)). Qed.

Section Ph.
Variable dp : str -> option date.

Lemma ph_key_run (key t : str) s r : sees s ((key ++ bs " ") ++ t ++ b_nl :: r) -> no_lead t ->
  tag key s = Ok (mv (length key) s) (tk (length key) s) /\
  space1 (mv (length key) s) = Ok (mv (length key + 1) s) (tk 1 (mv (length key) s)) /\
  sees (mv (length key + 1) s) (t ++ b_nl :: r).
Proof.
  intros H L. rewrite <- app_assoc in H. split; [now apply (tag_run key s _ H)|].
  pose proof (sees_mv _ _ _ H) as H1. split.
  - rewrite (space1_run _ (bs " ") _ H1); [now rewrite mv_mv|repeat constructor|discriminate|now apply lead_nl].
  - apply sees_mv in H1. now rewrite mv_mv in H1.
Qed.
Lemma placeholder_run s p k : sees s (placeholder_line p ++ b_nl :: k) -> lstart s -> placeholder_fine dp p ->
  got s (p_placeholder dp s) (length (placeholder_line p) + 1) (fun x => l_val x = p).
Proof.
  intros H B F. unfold p_placeholder. rewrite (bol_run s (sees_ok _ _ H) B). cbn [bind].
  apply (got_bind s _ (length (placeholder_line p)) (fun x => l_val x = p)).
  2: { intros x Hx. pose proof (sees_mv _ _ _ H) as H1. rewrite (eol_run_nl _ _ H1). cbn [bind]. now apply got_ok. }
  apply (got_located s _ _ (fun x => x = p)). cbn [alt].
  destruct p as [t| |t|d|n v]; cbn [placeholder_line placeholder_fine] in *.
  - apply got_palt_l. unfold placeholder_title.
    destruct (ph_key_run (bs "%title") t s k) as (E1 & E2 & H1); [rewrite <- app_assoc in H; exact H|apply F|].
    rewrite E1. cbn [bind]. rewrite E2. cbn [bind]. rewrite (value_run _ _ _ H1 F). cbn [bind]. rewrite mv_mv. now apply got_ok.
  - apply got_palt_r; [unfold placeholder_title; rewrite (tag_no _ _ _ H) by reflexivity; exact I|].
    apply got_palt_l. unfold placeholder_nohtml. rewrite (tag_run (bs "%nohtml") s _ H). cbn [bind].
    pose proof (sees_mv _ _ _ H) as H1. rewrite (space0_none _ _ H1) by (apply line_end_head; right; eauto). cbn [bind]. now apply got_ok.
  - apply got_palt_r; [unfold placeholder_title; rewrite (tag_no _ _ _ H) by reflexivity; exact I|].
    apply got_palt_r; [unfold placeholder_nohtml; rewrite (tag_no _ _ _ H) by reflexivity; exact I|].
    apply got_palt_l. unfold placeholder_template.
    destruct (ph_key_run (bs "%template") t s k) as (E1 & E2 & H1); [rewrite <- app_assoc in H; exact H|apply F|].
    rewrite E1. cbn [bind]. rewrite E2. cbn [bind]. rewrite (value_run _ _ _ H1 F). cbn [bind]. rewrite mv_mv. now apply got_ok.
  - apply got_palt_r; [unfold placeholder_title; rewrite (tag_no _ _ _ H) by reflexivity; exact I|].
    apply got_palt_r; [unfold placeholder_nohtml; rewrite (tag_no _ _ _ H) by reflexivity; exact I|].
    apply got_palt_r; [unfold placeholder_template; rewrite (tag_no _ _ _ H) by reflexivity; exact I|].
    apply got_palt_l. unfold placeholder_date. destruct F as (F1 & F2 & F3 & F4).
    destruct (ph_key_run (bs "%date") (date_display d) s k) as (E1 & E2 & H1); [rewrite <- app_assoc in H; exact H|apply F4|].
    rewrite E1. cbn [bind]. rewrite E2. cbn [bind]. unfold map_opt. rewrite (until_eol_run _ _ _ H1) by now apply whole_nl.
    cbn [bind]. rewrite (remaining_tk _ _ _ H1), F1. cbn [bind]. rewrite mv_mv. now apply got_ok.
  - destruct F as [(F1 & F2 & F3 & F4 & F5 & F6) Fv].
    assert (Hk : forall w, In w [bs "title"; bs "nohtml"; bs "template"; bs "date"] -> tag (bs "%" ++ w) s = Err).
    { intros w Hw. apply (tag_no _ _ _ H). change ((bs "%" ++ n ++ bs " " ++ v) ++ b_nl :: k) with (x25 :: (n ++ bs " " ++ v) ++ b_nl :: k).
      change (bs "%" ++ w) with (x25 :: w). cbn [starts_with]. rewrite beqb_refl. cbn [andb].
      apply sw_false. intros r E. rewrite <- app_assoc in E. symmetry in E.
      assert (Nw : ~ In b_sp w) by (cbn in Hw; intuition subst; match goal with H : In _ _ |- _ => cbn in H; intuition discriminate end).
      apply app_eq_app in E as (l & [[E1 E2]|[E1 E2]]).
      - destruct l as [|c l]; [rewrite app_nil_r in E1; subst w; now apply (F6 [] n Hw); rewrite app_nil_r|].
        rewrite <- app_assoc in E2. cbn in E2. injection E2 as <- _. apply Nw. rewrite E1. apply in_or_app. right. now left.
      - now apply (F6 l w Hw). }
    pose proof (Hk _ (or_introl eq_refl)) as K1. pose proof (Hk _ (or_intror (or_introl eq_refl))) as K2.
    pose proof (Hk _ (or_intror (or_intror (or_introl eq_refl)))) as K3. pose proof (Hk _ (or_intror (or_intror (or_intror (or_introl eq_refl))))) as K4.
    change (bs "%" ++ bs "title") with (bs "%title") in K1. change (bs "%" ++ bs "nohtml") with (bs "%nohtml") in K2.
    change (bs "%" ++ bs "template") with (bs "%template") in K3. change (bs "%" ++ bs "date") with (bs "%date") in K4.
    apply got_palt_r; [unfold placeholder_title; rewrite K1; exact I|].
    apply got_palt_r; [unfold placeholder_nohtml; rewrite K2; exact I|].
    apply got_palt_r; [unfold placeholder_template; rewrite K3; exact I|].
    apply got_palt_r; [unfold placeholder_date; rewrite K4; exact I|].
    apply got_palt_l. unfold placeholder_other. unfold pnot.
    rewrite K1. cbn [bind]. rewrite K2. cbn [bind]. rewrite K3. cbn [bind]. rewrite K4. cbn [bind].
    rewrite <- !app_assoc in H. rewrite (tag_run (bs "%") s _ H). cbn [bind]. pose proof (sees_mv _ _ _ H) as H1.
    rewrite (map_cow_run (take_line_until_one_of_three1 (bs " ") [b_tab] (bs "%")) _ n _ H1).
    2: { unfold take_line_until_one_of_three1, verify, take_line_until_one_of_three.
         destruct H1 as [H1 E1]. rewrite E1.
         assert (T : tlu3_pos (bs " ") [b_tab] (bs "%") (n ++ bs " " ++ v ++ b_nl :: k) = length n).
         { apply (first_stop_unique [bs " "; [b_tab]; bs "%"] (n ++ bs " " ++ v ++ b_nl :: k)); [apply tlu3_first; discriminate|].
           pose proof (first_stop_byte b_sp n (v ++ b_nl :: k) F2 F3 ltac:(discriminate)) as (P1 & P2 & P3). split; [exact P1|]. split.
           - intros j Hj. split; [now apply P2|]. intros p Hp Hf. cbn in Hp. destruct Hp as [<-|[<-|[<-|[]]]]; apply found_nth in Hf;
               change (bs " " ++ v ++ b_nl :: k) with (b_sp :: v ++ b_nl :: k) in Hf; rewrite nth_error_app1 in Hf by auto; apply nth_error_In in Hf; contradiction.
           - right. right. exists (bs " "). split; [now left|]. exists n, (v ++ b_nl :: k). auto. }
         rewrite T. assert (S1 : sees (mv (length (bs "%")) s) (n ++ bs " " ++ v ++ b_nl :: k)) by (split; auto).
         rewrite (split_run (length n) _ _ S1) by (rewrite app_length; lia). cbn [bind].
         unfold non_empty, sp_is_empty. rewrite (sees_len _ _ (sees_tk _ _ _ S1)). destruct n; [congruence|reflexivity]. }
    cbn [bind]. pose proof (sees_mv _ _ _ H1) as H2. rewrite (space1_run _ (bs " ") _ H2); [|repeat constructor|discriminate|apply lead_nl; apply Fv].
    cbn [bind]. pose proof (sees_mv _ _ _ H2) as H3. rewrite (value_run _ _ _ H3 Fv). cbn [bind]. rewrite !mv_mv.
    eapply got_n; [now apply got_ok|]. rewrite !app_length. cbn. lia.
Qed.
End Ph.

(** * Quotations *)

Lemma not_eol_run s a r : sees s (a ++ b_nl :: r) -> quote_fine a -> not_line_ending s = Ok (mv (length a) s) (tk (length a) s).
Proof.
  intros H [N1 N2]. unfold not_line_ending. destruct H as [Hs E]. rewrite E.
  assert (F : find_pos (fun b => beqb b b_cr || beqb b b_nl) (a ++ b_nl :: r) = Some (length a)).
  { clear E. induction a as [|c a IH]; [reflexivity|]. cbn [app find_pos length].
    assert (beqb c b_cr || beqb c b_nl = false) as ->.
    { apply orb_false_intro; apply beqb_neq; intros ->; [apply N2|apply N1]; now left. }
    rewrite IH; [reflexivity| |]; intro Hi; [apply N1|apply N2]; now right. }
  rewrite F. rewrite skipn_app, skipn_all, Nat.sub_diag. cbn [skipn app starts_with].
  change (beqb b_cr b_nl) with false. cbn [andb]. apply (split_run _ s (a ++ b_nl :: r)); [split; auto|]. rewrite app_length. lia.
Qed.
Lemma arrow_line_run ind s l k : sees s ((ind ++ bs "> " ++ l) ++ b_nl :: k) -> blanks ind -> quote_fine l ->
  arrow_blockquote_line s = Ok (mv (length (ind ++ bs "> " ++ l) + 1) s) l.
Proof.
  intros H B F. rewrite <- !app_assoc in H. unfold arrow_blockquote_line.
  rewrite (space0_run s ind _ H B) by now apply (lit_head (bs "> ") _ x3e (bs " ")). cbn [bind]. apply sees_mv in H.
  rewrite (tag_run (bs "> ") _ _ H). cbn [bind]. pose proof (sees_mv _ _ _ H) as H1.
  rewrite (map_cow_run not_line_ending _ l _ H1) by now apply (not_eol_run _ _ k). cbn [bind].
  pose proof (sees_mv _ _ _ H1) as H2. rewrite (eol_run_nl _ _ H2). cbn [bind]. rewrite !mv_mv. do 2 f_equal. rewrite !app_length. lia.
Qed.
Lemma blanks_unique a c r a' c' r' : a ++ c :: r = a' ++ c' :: r' -> blanks a -> blanks a' ->
  is_space c = false -> is_space c' = false -> a = a' /\ c = c' /\ r = r'.
Proof.
  revert a'. induction a as [|x a IH]; intros [|y a'] E B B' N N'; cbn in E; injection E as -> E; auto.
  - inversion B'; congruence.
  - inversion B; congruence.
  - inversion B; inversion B'; subst. destruct (IH a' E) as (-> & ? & ?); auto.
Qed.
(** What follows a block on a page: nothing, or an empty line and a line that
    is not blank. *)
Definition next_starts (k : str) (P : str -> Prop) : Prop :=
  k = [] \/ exists a c r, k = b_nl :: a ++ c :: r /\ blanks a /\ is_space c = false /\ c <> b_nl /\ c <> b_cr /\ P (c :: r).
Definition no_quote (l : str) : Prop := forall r, l <> bs "> " ++ r.
(** A quotation ends here: at the end, or before a line that is neither blank
    nor one of a quotation, possibly after an empty line. *)
Definition quote_stop (k : str) : Prop :=
  k = [] \/ exists e a c r, k = e ++ a ++ c :: r /\ (e = [] \/ e = [b_nl]) /\ blanks a /\ is_space c = false /\ c <> b_nl /\ c <> b_cr /\ no_quote (c :: r).
Lemma next_stop k : next_starts k no_quote -> quote_stop k.
Proof. intros [->|(a & c & r & -> & H)]; [now left|]. right. exists [b_nl], a, c, r. split; auto. Qed.
Lemma next_line_end k P : next_starts k P -> line_end k.
Proof. intros [->|(a & c & r & -> & _)]; [now left|right; eauto]. Qed.
Lemma no_blank_line s a c r : sees s (a ++ c :: r) -> blanks a -> is_space c = false -> c <> b_nl -> c <> b_cr ->
  fails (blank_line s).
Proof.
  intros H B N1 N2 N3. unfold blank_line, preceded. apply fails_bind_ends.
  - unfold beginning_of_line. destruct (rev (consumed s)) as [|x t]; [exact I|]. destruct (is_nl x); exact I.
  - intros s' u E. assert (s' = s) as ->.
    { unfold beginning_of_line in E. destruct (rev (consumed s)) as [|x t]; [congruence|]. destruct (is_nl x); congruence. }
    assert (Hn : nonblank_head (c :: r)) by (intros x y Exy; injection Exy as <- _; exact N1).
    apply fails_palt; unfold terminated.
    + destruct a as [|x a].
      * rewrite space1_err; [exact I|]. destruct H as [_ ->]. exact Hn.
      * rewrite (space1_run s (x :: a) _ H B ltac:(discriminate) Hn). cbn [bind].
        rewrite (eol_err _ c r (sees_mv _ _ _ H) N2 N3). exact I.
    + rewrite (space0_run s a _ H B Hn). cbn [bind]. rewrite line_ending_err; [exact I| |];
        destruct (sees_mv _ _ _ H) as [_ ->]; intros q Eq; congruence.
Qed.
Lemma no_blank_end s : sees s [] -> fails (blank_line s).
Proof.
  intro H. unfold blank_line, preceded. apply fails_bind_ends.
  - unfold beginning_of_line. destruct (rev (consumed s)) as [|x t]; [exact I|]. destruct (is_nl x); exact I.
  - intros s' u E. assert (s' = s) as ->.
    { unfold beginning_of_line in E. destruct (rev (consumed s)) as [|x t]; [congruence|]. destruct (is_nl x); congruence. }
    apply fails_palt; unfold terminated.
    + rewrite space1_err; [exact I|]. destruct H as [_ ->]. congruence.
    + rewrite (space0_none s [] H) by congruence. cbn [bind]. rewrite line_ending_err; [exact I| |]; destruct H as [_ ->]; congruence.
Qed.
Lemma blank_run s r : sees s (b_nl :: r) -> lstart s -> exists o, blank_line s = Ok (mv 1 s) o.
Proof.
  intros H B. unfold blank_line, preceded, terminated. rewrite (bol_run s (sees_ok _ _ H) B). cbn [bind].
  unfold palt. rewrite space1_err by (destruct H as [_ ->]; apply line_end_head; right; eauto). cbn [bind].
  rewrite (space0_none s _ H) by (apply line_end_head; right; eauto). cbn [bind]. rewrite (line_ending_run _ _ H). cbn [bind]. eauto.
Qed.
Lemma no_arrow_at s a c r : sees s (a ++ c :: r) -> blanks a -> is_space c = false -> no_quote (c :: r) -> fails (arrow_blockquote_line s).
Proof.
  intros [H E] B S N. apply no_arrow_line; [exact H|]. rewrite E. intros a' r' B' E'.
  change (bs "> " ++ r') with (x3e :: x20 :: r') in E'.
  apply (blanks_unique a c r a' x3e) in E'; auto. destruct E' as (_ & -> & ->). now apply (N r').
Qed.
Lemma arrow_tail s k : sees s k -> lstart s -> quote_stop k ->
  got s (many0 (pair (many0 (value ([] : str) blank_line)) arrow_blockquote_line) s) 0 (fun l => l = []).
Proof.
  intros H B [->|(e & a & c & r & -> & He & Ba & N1 & N2 & N3 & N4)]; apply got_many0_nil; unfold pair.
  - apply (fails_bind_got s _ 0 (fun l => l = [])).
    + apply got_many0_nil. unfold value. apply fails_pmap. now apply no_blank_end.
    + intros x _. rewrite mv_0. apply fails_bind. apply no_arrow_line; [apply H|]. destruct H as [_ ->]. intros a r _ E. destruct a; discriminate.
  - destruct He as [-> | ->].
    + cbn [app] in H. apply (fails_bind_got s _ 0 (fun l => l = [])).
      * apply got_many0_nil. unfold value. apply fails_pmap. now apply (no_blank_line s a c r).
      * intros x _. rewrite mv_0. apply fails_bind. now apply (no_arrow_at s a c r).
    + assert (H1 : sees (mv 1 s) (a ++ c :: r)) by exact (sees_mv s [b_nl] _ H).
      apply (fails_bind_got s _ (1 + 0) (fun _ => True)).
      * eapply got_weaken; [|intros; exact I].
        apply (got_many0_cons s _ _ 1 0 (fun _ => True) (fun l => l = []) H); [cbn; lia|lia| |].
        -- destruct (blank_run s _ H B) as [o Eo]. unfold value, pmap. rewrite Eo. cbn [bind]. now apply got_ok.
        -- apply got_many0_nil. unfold value. apply fails_pmap. now apply (no_blank_line _ a c r).
      * intros x _. apply fails_bind. now apply (no_arrow_at _ a c r).
Qed.
Lemma no_arrow_stop s k : sees s k -> quote_stop k -> fails (arrow_blockquote_line s).
Proof.
  intros H [->|(e & a & c & r & -> & [-> | ->] & Ba & N1 & N2 & N3 & N4)].
  - apply no_arrow_line; [apply H|]. destruct H as [_ ->]. intros a r _ E. destruct a; discriminate.
  - now apply (no_arrow_at s a c r).
  - apply (no_arrow_at s [] b_nl (a ++ c :: r)); auto; [constructor|]. intros x E. discriminate.
Qed.
Lemma arrow_run_ind ind0 ind s l ls k : sees s ((ind0 ++ bs "> " ++ l) ++ b_nl :: nl_lines (map (app ind) (quote_lines ls)) ++ k) ->
  blanks ind0 -> blanks ind -> Forall quote_fine (l :: ls) -> quote_stop k ->
  got s (arrow_blockquote s) (length (ind0 ++ bs "> " ++ l) + 1 + length (nl_lines (map (app ind) (quote_lines ls)))) (fun x => l_val x = l :: ls).
Proof.
  intros H B0 B F N. unfold arrow_blockquote. apply (got_located s _ _ (fun x => x = l :: ls)).
  set (T := nl_lines (map (app ind) (quote_lines ls))) in *. set (h := ind0 ++ bs "> " ++ l) in *.
  assert (H1 : sees (mv (length h + 1 + length T) s) k).
  { rewrite <- mv_mv. exact (sees_mv _ _ _ (sees_cons _ _ _ _ H)). }
  assert (L : lstart (mv (length h + 1 + length T) s)).
  { destruct (list_eq_dec (list_eq_dec byte_eq_dec) ls []) as [El|Ne].
    - assert (T = []) as -> by (unfold T; rewrite El; reflexivity). rewrite Nat.add_0_r. exact (lstart_line _ _ _ H).
    - destruct (exists_last Ne) as (l0 & x & El). unfold T, quote_lines in *. clear T. rewrite El, !map_app, nl_lines_app in *. cbn [map nl_lines flat_map] in *.
      rewrite app_nil_r in *. rewrite (app_assoc _ (_ ++ _) [b_nl]) in *.
      match type of H with sees _ (h ++ b_nl :: (?u ++ [b_nl]) ++ k) => set (u0 := u) in * end.
      assert (H2 : sees s ((h ++ [b_nl] ++ u0) ++ b_nl :: k)) by (rewrite <- !app_assoc in *; exact H). apply lstart_line in H2.
      rewrite !app_length in *. cbn [length] in *. replace (length h + 1 + (length u0 + 1)) with (length h + (1 + length u0) + 1) by lia. exact H2. }
  eapply got_pmap with (P := fun p => p = (l :: ls, [])); [|intros p ->; cbn; now rewrite app_nil_r].
  rewrite <- (Nat.add_0_r (length h + 1 + length T)). unfold pair at 1. eapply (got_bind s _ (length h + 1 + length T) (fun x => x = l :: ls)).
  2: { intros x ->. rewrite <- (Nat.add_0_r 0). eapply (got_bind _ _ 0 (fun b => b = [])).
       - eapply got_pmap; [exact (arrow_tail _ _ H1 L N)|]. intros x ->. reflexivity.
       - intros b ->. rewrite mv_0. now apply got_ret. }
  assert (A : forall ls s, sees s (nl_lines (map (app ind) (quote_lines ls)) ++ k) -> Forall quote_fine ls ->
     got s (many0 arrow_blockquote_line s) (length (nl_lines (map (app ind) (quote_lines ls)))) (fun x => x = ls)).
  { clear - N B. induction ls as [|l ls IH]; intros s H F.
    - cbn [nl_lines quote_lines map flat_map app length] in *. apply got_many0_nil. now apply (no_arrow_stop s k).
    - inversion F as [|? ? Fl Fs]; subst. cbn [quote_lines map nl_lines flat_map] in *. fold (quote_lines ls) (nl_lines (map (app ind) (quote_lines ls))) in *.
      set (h := ind ++ bs "> " ++ l) in *. set (T := nl_lines (map (app ind) (quote_lines ls))) in *.
      assert (H0 : sees s (h ++ b_nl :: T ++ k)) by (rewrite <- !app_assoc in H; exact H).
      eapply got_n; [eapply got_weaken; [eapply (got_many0_cons s _ _ (length h + 1) (length T) (fun x => x = l) (fun x => x = ls) H0)|]|].
      + rewrite !app_length. cbn. lia.
      + lia.
      + apply got_eq. now apply (arrow_line_run ind s l _ H0).
      + apply IH; auto. exact (sees_cons s h _ _ H0).
      + intros x (y & l' & -> & -> & ->). reflexivity.
      + rewrite !(app_length _ T), !(app_length _ [b_nl]). reflexivity. }
  inversion F as [|? ? Fl Fs]; subst.
  eapply got_weaken; [eapply (got_many1 s _ (length h + 1) (length T) (fun x => x = l) (fun x => x = ls))|].
  - apply got_eq. exact (arrow_line_run ind0 s l _ H B0 Fl).
  - apply A; auto. exact (sees_cons s h _ _ H).
  - intros x (y & l' & -> & -> & ->). reflexivity.
Qed.
Lemma arrow_run s ls k : sees s (nl_lines (quote_lines ls) ++ k) -> lstart s -> ls <> [] -> Forall quote_fine ls ->
  next_starts k no_quote ->
  got s (arrow_blockquote s) (length (nl_lines (quote_lines ls))) (fun x => l_val x = ls).
Proof.
  intros H _ Ne F N. destruct ls as [|l ls]; [congruence|]. cbn [quote_lines map nl_lines flat_map] in *.
  fold (quote_lines ls) (nl_lines (quote_lines ls)) in *. rewrite <- (ind_nil (quote_lines ls)) in *. rewrite <- !app_assoc in H.
  eapply got_n; [exact (arrow_run_ind [] [] s l ls k H blanks_nil blanks_nil F (next_stop k N))|].
  rewrite !app_length. cbn. lia.
Qed.
