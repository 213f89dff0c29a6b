(** Reading back headers and paragraphs. *)
From Verif Require Import Base ModelSpan ModelComb ModelAst ModelTable ModelLink ModelInline ModelBlock ModelElem
  SpecDoc SpecBlock SpecTree SpecSpan SpecEq SpecRound ProofBase ProofBytes ProofContract ProofPrim ProofInline ProofLink ProofText
  ProofBlock ProofFence ProofDefs ProofTable ProofList ProofPage ProofClaims2 ProofSpan ProofRound ProofRound2 ProofRound3
  ProofRound4 ProofRound5 ProofRound6 ProofRound7 ProofRound8.
From Verif Require SpecVw ProofVw.
Local Open Scope nat_scope.

(** * Trimming a known text *)

Lemma trim_trailing_run s t b : sees s (t ++ b) -> blanks b -> no_trail t ->
  trim_trailing_whitespace s = Ok (tk (length t) s) tt.
Proof.
  intros H B N. unfold trim_trailing_whitespace, rest_len, count_trailing_whitespace. cbn [bind].
  pose proof (sees_len _ _ H) as L. destruct H as [_ ->]. rewrite rev_app_distr, count_blanks.
  - rewrite L, app_length, rev_length. unfold advance_end_by, tk. do 3 f_equal. lia.
  - unfold blanks. now apply Forall_rev.
  - intros c r E. apply (N c (rev r)). rewrite <- (rev_involutive t), E. reflexivity.
Qed.
Lemma take_end_run n s a b : sees s (a ++ b) -> n = length b -> take_end n s = Ok (tk (length a) s) (mv (length a) s).
Proof.
  intros H ->. unfold take_end. rewrite (sees_len _ _ H), app_length. destruct (Nat.ltb_spec (length a + length b) (length b)); [lia|].
  unfold advance_end_by, advance_start_by, tk, mv. replace (length a + length b - length b) with (length a) by lia.
  pose proof (sees_len _ _ H) as L. rewrite app_length in L. unfold remaining_len in L.
  destruct H as [[H _] _]. rewrite (proj2 (Nat.leb_le _ _) H) in L. destruct (Nat.ltb_spec (sp_end s) (sp_start s + length a)); [lia|reflexivity].
Qed.
Lemma take1_run s c r : sees s (c :: r) -> take 1 s = Ok (mv 1 s) (tk 1 s).
Proof.
  intro H. unfold take. rewrite (sees_len _ _ H). cbn [length Nat.leb]. apply (split_run 1 s _ H). cbn. lia.
Qed.
Lemma trim_run s a t b : sees s (a ++ t ++ b) -> blanks a -> blanks b -> t <> [] -> no_lead t -> no_trail t ->
  trim_whitespace s = Ok (tk (length t) (mv (length a) s)) tt.
Proof.
  intros H A B Ne N1 N2. unfold trim_whitespace. rewrite (space0_run s a _ H A).
  - cbn [bind]. rewrite (trim_trailing_run _ t b (sees_mv _ _ _ H) B N2). reflexivity.
  - intros c r E. destruct t as [|x t]; [congruence|]. cbn in E. injection E as <- _. eapply N1. reflexivity.
Qed.

(** * Trimmed text *)

Lemma str_trim_id t : str_trim t = t -> ~ SpecVw.starts_white t /\ ~ SpecVw.ends_white t.
Proof.
  intro E. unfold str_trim in E. destruct (ProofVw.trim_start_spec t) as (w & E1 & _ & N1).
  destruct (ProofVw.trim_end_spec (str_trim_start t)) as (w' & E2 & _ & N2). rewrite E in E2, N2.
  split; [|exact N2]. assert (L1 := f_equal (@length _) E1). assert (L2 := f_equal (@length _) E2). rewrite app_length in L1, L2.
  destruct w; [|cbn in L1; lia]. cbn in E1. rewrite <- E1 in N1. exact N1.
Qed.
Lemma trimmed_head t c r : str_trim t = t -> t = c :: r -> is_space c = false /\ c <> b_nl /\ c <> b_cr.
Proof.
  intros E ->. apply str_trim_id in E as [N _].
  assert (W : ~ SpecVw.white_char [c]) by (intro W; apply N; exists [c], r; auto).
  split; [|split]; [destruct (is_space c) eqn:S; auto; exfalso; apply W; destruct c; try discriminate; unfold SpecVw.white_char; cbn; auto 10|..];
    intros ->; apply W; unfold SpecVw.white_char; cbn; auto 10.
Qed.
Lemma trimmed_last t c r : str_trim t = t -> t = r ++ [c] -> is_space c = false /\ c <> b_nl /\ c <> b_cr.
Proof.
  intros E ->. apply str_trim_id in E as [_ N].
  assert (W : ~ SpecVw.white_char [c]) by (intro W; apply N; exists [c], r; auto).
  split; [|split]; [destruct (is_space c) eqn:S; auto; exfalso; apply W; destruct c; try discriminate; unfold SpecVw.white_char; cbn; auto 10|..];
    intros ->; apply W; unfold SpecVw.white_char; cbn; auto 10.
Qed.

Lemma consumed_tk n s : consumed (tk n s) = consumed s. Proof. reflexivity. Qed.
Lemma ctxt_sp s r : sees s (b_sp :: r) -> ctxt (mv 1 s) [].
Proof.
  intro H. exists (consumed s ++ [b_sp]). rewrite app_nil_r. split; [exact (consumed_mv s [b_sp] r H)|].
  right. exists (consumed s), b_sp. auto.
Qed.
Lemma ctxt_lstart s : span_ok s -> lstart s -> ctxt s [].
Proof.
  intros H B. exists (consumed s). rewrite app_nil_r. split; auto. unfold consumed. unfold lstart, bol in B.
  destruct (sp_start s) as [|n]; [left; reflexivity|]. destruct B as [B|B]; [discriminate|].
  replace (S n - 1) with n in * by lia. right. exists (firstn n (sp_inner s)), b_nl. split; [|reflexivity].
  apply nth_error_split in B as (l1 & l2 & -> & <-). rewrite firstn_app, firstn_all2 by lia.
  replace (S (length l1) - length l1) with 1 by lia. rewrite firstn_app, Nat.sub_diag, firstn_all. cbn. now rewrite app_nil_r.
Qed.

Lemma got_shift {A} s a n (r : res A) P : got (mv a s) r n P -> got s r (a + n) P.
Proof. destruct r; cbn; auto. now rewrite mv_mv. Qed.

Lemma prefix_head t u pre : prefix_ok t u pre -> exists c r, pre = c :: r /\ is_space c = false /\ no_nl pre.
Proof.
  destruct t as [o|[| |]]; cbn; try contradiction.
  - intros (l & -> & [Hl Ho] & _).
    assert (Hb : forall b, In b l -> is_space b = false /\ b <> b_nl).
    { intros b Hb. destruct o.
      - eapply Forall_forall in Ho; eauto. destruct b; try discriminate; split; (reflexivity || discriminate).
      - subst l. destruct Hb as [<-|[]]. split; (reflexivity || discriminate).
      - destruct Ho as [Ho _]. eapply Forall_forall in Ho; eauto. destruct b; try discriminate; split; (reflexivity || discriminate).
      - destruct Ho as [Ho _]. eapply Forall_forall in Ho; eauto. destruct b; try discriminate; split; (reflexivity || discriminate).
      - eapply Forall_forall in Ho; eauto. cbn in Ho. repeat (destruct Ho as [<-|Ho]; [split; (reflexivity || discriminate)|]). destruct Ho.
      - eapply Forall_forall in Ho; eauto. cbn in Ho. repeat (destruct Ho as [<-|Ho]; [split; (reflexivity || discriminate)|]). destruct Ho. }
    destruct l as [|c l]; [congruence|]. exists c, (l ++ suffix_str u). split; [reflexivity|]. split; [apply Hb; now left|].
    apply no_nl_app. split; [intro Hi; now apply Hb in Hi as [_ Hi]|]. destruct u; nonl.
  - intros [-> _]. do 2 eexists. split; [reflexivity|]. split; [reflexivity|nonl].
  - intros [-> _]. do 2 eexists. split; [reflexivity|]. split; [reflexivity|nonl].
Qed.
Lemma line_starts ind ln k a w r : ind ++ ln ++ k = a ++ w ++ r -> blanks ind -> blanks a -> no_lead ln -> line_end k ->
  (exists c t, w = c :: t /\ is_space c = false) -> no_nl w -> a = ind /\ exists r', ln = w ++ r'.
Proof.
  intros E Bi Ba Nl Lk (c & t & -> & Sc) Nw.
  assert (K : exists x q, ln ++ k = x :: q /\ is_space x = false).
  { destruct ln as [|x ln]; [|exists x, (ln ++ k); split; [reflexivity|eapply Nl; reflexivity]].
    destruct Lk as [->|[r' ->]]; [|exists b_nl, r'; auto]. exfalso. rewrite !app_nil_r in E.
    rewrite E in Bi. apply Forall_app in Bi as [_ Bi]. inversion Bi. congruence. }
  destruct K as (x & q & Eq & Sx). rewrite Eq in E. cbn [app] in E.
  destruct (blanks_unique ind x q a c (t ++ r) E Bi Ba Sx Sc) as (-> & -> & ->). split; auto.
  symmetry in Eq. exact (nl_free_prefix (c :: t) r ln k Eq Nw Lk).
Qed.
Lemma absent_blanks ind ln : blanks ind -> absent (bs "::") ln -> absent (bs "::") (ind ++ ln).
Proof.
  intros B N a b E. apply app_eq_app in E as (l & [[E1 E2]|[E1 E2]]).
  - destruct l as [|c l].
    + apply (N [] b). symmetry. exact E2.
    + change (bs "::" ++ b) with (x3a :: x3a :: b) in E2. cbn in E2. injection E2 as <- _. rewrite E1 in B.
      apply Forall_app in B as [_ B]. inversion B. discriminate.
  - apply (N l b E2).
Qed.

Lemma lstart_lines s a ls k : sees s (a ++ b_nl :: nl_lines ls ++ k) -> lstart (mv (length a + 1 + length (nl_lines ls)) s).
Proof.
  revert s a. induction ls as [|l ls IH]; intros s a H.
  - cbn [nl_lines flat_map length app] in *. rewrite Nat.add_0_r. exact (lstart_line _ _ _ H).
  - cbn [nl_lines flat_map] in *. fold (nl_lines ls) in *.
    assert (H1 : sees s ((a ++ [b_nl] ++ l) ++ b_nl :: nl_lines ls ++ k)) by (rewrite <- !app_assoc in *; exact H).
    apply IH in H1. rewrite !app_length in *. cbn [length] in *. replace (length a + 1 + (length l + 1 + length (nl_lines ls))) with (length a + (1 + length l) + 1 + length (nl_lines ls)) by lia. exact H1.
Qed.
Lemma lstart_nl s ls k : sees s (nl_lines ls ++ k) -> lstart s -> lstart (mv (length (nl_lines ls)) s).
Proof.
  intros H B. destruct ls as [|l ls]; [cbn; now rewrite mv_0|]. cbn [nl_lines flat_map] in *. fold (nl_lines ls) in *.
  rewrite <- !app_assoc in H. apply lstart_lines in H. rewrite !app_length. exact H.
Qed.

Section Blocks.
Variable up : str -> option uri.
Variable dp : str -> option date.
Variable lossy : str -> str.
(** The scheme of a URI is the text before its first colon. *)
Hypothesis Hsch : forall t u s, up t = Some u -> u_scheme u = Some s -> In s web_schemes ->
  exists w r, t = w ++ bs ":" ++ r /\ map lower w = s.
Local Notation cont_src := (cont_src lossy).
Local Notation cont_fine := (cont_fine up dp lossy).

Lemma cont_ne c : cont_fine c -> cont_src c <> [].
Proof.
  intros (N & F & _). destruct c as [|x c]; [congruence|]. rewrite cont_src_cons. destruct F as [F _].
  apply (inline_pos up dp lossy Hsch) in F. intro E. apply app_eq_nil in E as [E _]. rewrite E in F. cbn in F. lia.
Qed.
Lemma inner_run c s tail : sees s (cont_src c ++ tail) -> line_end tail -> ctxt s [] -> cont_fine c ->
  got s (container_inner up dp s) (length (cont_src c)) (fun x => same_cont x c).
Proof.
  intros H T C (F1 & F2 & F3 & _). unfold container_inner. eapply got_pmap; [exact (container_run up dp lossy Hsch c s tail H T C F1 F2 F3)|].
  auto.
Qed.

(** * Headers *)

Lemma header_tail_run n c s k : sees s ((bs " " ++ cont_src c ++ bs " " ++ repeat x3d n) ++ b_nl :: k) -> 1 <= n -> cont_fine c ->
  got s (header_tail up dp n s) (length (bs " " ++ cont_src c ++ bs " " ++ repeat x3d n)) (fun x => same_cont x c).
Proof.
  intros H Hn F. pose proof (cont_ne c F) as Ne. set (T := bs " " ++ cont_src c ++ bs " " ++ repeat x3d n) in *.
  unfold header_tail. assert (Nl : no_nl T).
  { unfold T. rewrite !no_nl_app. split; [nonl|]. split; [apply F|]. split; [nonl|]. intro Hi. apply repeat_spec in Hi. discriminate. }
  assert (Lst : T = (bs " " ++ cont_src c ++ bs " " ++ repeat x3d (n - 1)) ++ [x3d]).
  { unfold T. rewrite <- !app_assoc. do 3 f_equal. destruct n; [lia|]. cbn [Nat.sub]. rewrite Nat.sub_0_r. now rewrite <- repeat_cons. }
  assert (W : whole_line T (b_nl :: k)).
  { apply whole_nl; auto. intros x E. rewrite Lst in E. apply app_inj_tail in E as [_ E]. discriminate. }
  rewrite (until_eol_run s T _ H W). cbn [bind]. pose proof (sees_tk _ _ _ H) as H1. set (r0 := tk (length T) s) in *.
  assert (H1' : sees r0 (T ++ [])) by now rewrite app_nil_r.
  rewrite (trim_trailing_run r0 T [] H1' ltac:(constructor)).
  2: { intros b r E. rewrite Lst in E. apply app_inj_tail in E as [_ <-]. reflexivity. }
  cbn [bind]. unfold verify at 1. assert (H2 : sees (tk (length T) r0) ((bs " " ++ cont_src c ++ bs " ") ++ repeat x3d n)).
  { apply sees_tk in H1'. unfold T in H1' at 2. rewrite <- !app_assoc. exact H1'. }
  rewrite (take_end_run n _ _ _ H2) by now rewrite repeat_length. cbn [bind].
  rewrite (proj2 (sees_mv _ _ _ H2)). assert (forallb (beqb x3d) (repeat x3d n) = true) as ->.
  { apply forallb_forall. intros x Hx. apply repeat_spec in Hx. now subst. }
  cbn [bind]. apply sees_tk in H2. set (r2 := tk _ (tk (length T) r0)) in *.
  unfold peek at 1, verify at 1. rewrite (take1_run r2 b_sp (cont_src c ++ bs " ") H2). cbn [bind].
  assert (remaining (tk 1 r2) = bs " ") as -> by exact (remaining_tk r2 (bs " ") _ H2). change (negb (starts_with (bs "=") (bs " "))) with true. cbn [bind].
  unfold peek at 1, verify at 1. assert (H2' : sees r2 ((bs " " ++ cont_src c) ++ bs " ")) by now rewrite <- app_assoc.
  rewrite (take_end_run 1 r2 _ _ H2') by reflexivity. cbn [bind].
  rewrite (proj2 (sees_mv _ _ _ H2')). change (negb (starts_with (bs "=") (bs " "))) with true. cbn [bind].
  rewrite (trim_run r2 (bs " ") (cont_src c) (bs " ") H2); [|repeat constructor|repeat constructor|exact Ne| |].
  2,3: destruct F as (_ & _ & _ & _ & F).
  2: { intros b r E. now apply (trimmed_head _ b r F). }
  2: { intros b r E. now apply (trimmed_last _ b r F). }
  cbn [bind]. pose proof (sees_tk _ _ _ (sees_mv _ _ _ H2)) as H3. set (r3 := tk _ (mv _ r2)) in *.
  assert (C3 : ctxt r3 []) by exact (ctxt_sp r2 _ H2).
  assert (G : got r3 (container_inner up dp r3) (length (cont_src c)) (fun x => same_cont x c)).
  { apply (inner_run c r3 []); auto. - now rewrite app_nil_r. - now left. }
  destruct (container_inner up dp r3); cbn in G |- *; auto. destruct G as [_ G]. auto.
Qed.
Lemma header_run h s k : sees s (header_line lossy h ++ b_nl :: k) -> lstart s -> 1 <= h_level h <= 6 -> cont_fine (h_content h) ->
  got s (p_header up dp s) (length (header_line lossy h) + 1)
    (fun x => same_cont (h_content (l_val x)) (h_content h) /\ h_level (l_val x) = h_level h /\ h_centered (l_val x) = h_centered h).
Proof.
  intros H B L F. unfold p_header. apply (got_located s _ _ (fun x => same_cont (h_content x) (h_content h) /\ h_level x = h_level h /\ h_centered x = h_centered h)).
  destruct h as [c n ce]. cbn [h_content h_level h_centered] in *. unfold header_line in *. cbn [h_content h_level h_centered] in *.
  set (a := if ce then bs "    " else []) in *. set (T := bs " " ++ cont_src c ++ bs " " ++ repeat x3d n) in *.
  rewrite (bol_run s (sees_ok _ _ H) B). cbn [bind].
  assert (Ba : blanks a) by (unfold a; destruct ce; repeat constructor).
  assert (H0 : sees s (a ++ repeat x3d n ++ T ++ b_nl :: k)) by (rewrite <- !app_assoc in H; exact H).
  assert (Hd : nonblank_head (repeat x3d n ++ T ++ b_nl :: k)).
  { destruct n; [lia|]. intros x y E. injection E as <- _. reflexivity. }
  unfold pmap at 1. rewrite (space0_run s a _ H0 Ba Hd). cbn [bind].
  assert (non_empty (tk (length a) s) = ce) as ->.
  { unfold non_empty, sp_is_empty. rewrite (sees_len _ _ (sees_tk _ _ _ H0)). unfold a. destruct ce; reflexivity. }
  pose proof (sees_mv _ _ _ H0) as H1. unfold verify, pmap at 1.
  rewrite (take_char1_run x3d n _ _ H1) by (try lia; try discriminate; intros x; unfold T; discriminate). cbn [bind].
  assert (remaining_len (tk n (mv (length a) s)) = n) as ->.
  { rewrite <- (repeat_length x3d n) at 1. rewrite (sees_len _ _ (sees_tk _ _ _ H1)). apply repeat_length. }
  assert ((min_level <=? n) && (n <=? max_level) = true) as -> by (unfold min_level, max_level; apply andb_true_intro; split; apply Nat.leb_le; lia).
  cbn [bind]. apply sees_mv in H1. rewrite repeat_length in H1. rewrite mv_mv in *.
  pose proof (header_tail_run n c _ k H1 ltac:(lia) F) as G. fold T in G.
  eapply got_n; [|instantiate (1 := length a + n + (length T + 1)); unfold a, T; rewrite !app_length, !repeat_length; unfold str; lia].
  apply got_shift. eapply got_bind; [eapply (got_pmap _ _ _ _ _ (fun x => same_cont (h_content x) c /\ h_level x = n /\ h_centered x = ce)); [exact G|]|].
  - cbn. auto.
  - intros x Hx. rewrite (eol_run_nl _ k); [|exact (sees_mv _ _ _ H1)]. cbn [bind]. now apply got_ok.
Qed.

(** * Lines that begin no other block *)

Lemma no_placeholder2 s : ctx s -> (forall r, remaining s = bs "%" ++ r -> exists r', r = bs "%" ++ r') -> fails (p_placeholder dp s).
Proof.
  intros Hc N. pose proof (@G_placeholder (any_env up dp (sp_inner s)) (S (remaining_len s)) s (ctx_sok up dp s Hc) ltac:(lia)) as G.
  unfold R in G. cbn [e_date any_env] in G. destruct (p_placeholder dp s) as [s' x| | |]; cbn; auto.
  destruct G as [A (sm & A1 & A2 & _ & L & _ & T & _)].
  pose proof (remaining_split s sm (ctx_sok up dp s Hc) A1) as E.
  destruct x as [x reg]. cbn [l_val] in T. destruct x; cbn in T;
    repeat match goal with H : exists _, _ |- _ => destruct H as [? H] end; destruct T as [T T'];
    rewrite T in E; rewrite E in N; cbn [app] in N; destruct (N _ eq_refl) as [r' E']; try discriminate E'.
  destruct T' as (_ & _ & _ & _ & N1 & N2 & _). destruct name as [|c n]; [congruence|]. cbn in E'. injection E' as -> _.
  inversion N2 as [|? ? [_ [_ N3]] _]; subst. congruence.
Qed.

(** Nothing but a paragraph begins here. *)
Definition only_text (n : nat) (s : span) : Prop :=
  fails (p_header up dp s) /\ fails (p_definition_list up dp s) /\ fails (list_ (nested_block_element up dp n) s) /\
  fails (p_table up dp s) /\ fails (p_code_block s) /\ fails (p_math_block s) /\
  fails (arrow_blockquote s) /\ fails (p_divider s) /\ fails (p_placeholder dp s).
Lemma ctxt_edge s : span_ok s -> ctxt s [] -> @edge (any_env up dp (sp_inner s)) s.
Proof.
  intros Hs (pre & E & W). rewrite app_nil_r in E. right. unfold consumed in E.
  assert (Lp : length pre = sp_start s) by (rewrite <- E, firstn_length; destruct Hs; lia).
  destruct (W eq_refl) as [->|(a & c & -> & Wc)]; [left; cbn in Lp; lia|]. right. left. exists c. split; [|exact Wc].
  rewrite app_length in Lp. cbn in Lp. assert (K : nth_error (sp_inner s) (sp_start s - 1) = Some c); [|exact K].
  rewrite <- (firstn_skipn (sp_start s) (sp_inner s)). rewrite E.
  rewrite nth_error_app1 by (rewrite app_length; cbn; lia). rewrite nth_error_app2 by lia.
  replace (sp_start s - 1 - length a) with 0 by lia. reflexivity.
Qed.
Lemma plain_only_text_w n s ind ln k : ctx s -> ctxt s [] -> remaining s = ind ++ ln ++ k -> blanks ind -> no_lead ln -> line_end k ->
  line_plain ln -> remaining_len s < n -> only_text n s.
Proof.
  intros C L E B Nl Lk (P1 & P2 & P3 & P4) Hn.
  assert (W : forall a w r, In w [bs "="; bs "|"; bs "{{{"; bs "{{$"; bs "> "; bs "----"] -> blanks a -> remaining s <> a ++ w ++ r).
  { intros a w r Hw Ba Er. rewrite E in Er. apply line_starts in Er as [_ [r' Er]]; auto.
    - now apply (P2 w r').
    - cbn in Hw. repeat (destruct Hw as [<-|Hw]; [do 2 eexists; split; reflexivity|]). destruct Hw.
    - cbn in Hw. repeat (destruct Hw as [<-|Hw]; [nonl|]). destruct Hw. }
  repeat split.
  - apply no_header; auto. intros (a & r & Er & Ba). apply (W a (bs "=") r); auto. now left.
  - apply (no_defs_e up dp s (ind ++ ln) k); auto; [apply ctxt_edge; auto; apply C|now rewrite <- app_assoc|]. now apply absent_blanks.
  - apply no_list_f; auto. intros a t u pre r Ba Hp Er. rewrite E in Er.
    destruct (prefix_head _ _ _ Hp) as (c & q & -> & S1 & S2).
    apply line_starts in Er as [_ [r' Er]]; auto; [exact (P4 t u _ r' Hp Er)|eauto].
  - apply no_table; auto. intros (a & r & Er & Ba). apply (W a (bs "|") r); auto. cbn; auto.
  - apply (no_code up dp); auto. intros (a & r & Er & Ba). apply (W a (bs "{{{") r); auto. cbn; auto.
  - apply (no_math up dp); auto. intros (a & r & Er & Ba). apply (W a (bs "{{$") r); auto. cbn; auto.
  - apply no_arrow; auto. intros a r Ba. apply W; auto. cbn; auto 6.
  - apply (no_divider up dp); auto. intros (r & Er). apply (W [] (bs "----") r); auto; [cbn; auto 7|constructor].
  - apply no_placeholder2; auto. intros r Er. rewrite Er in E. pose proof E as E0. symmetry in E.
    apply (line_starts ind ln k [] (bs "%") r) in E as [<- [r' ->]]; auto; [|constructor|do 2 eexists; split; reflexivity|nonl].
    destruct (P3 r' eq_refl) as [r2 ->]. exists (r2 ++ k). cbn in E0. now injection E0 as ->.
Qed.
Lemma plain_only_text n s ind ln k : ctx s -> lstart s -> remaining s = ind ++ ln ++ k -> blanks ind -> no_lead ln -> line_end k ->
  line_plain ln -> remaining_len s < n -> only_text n s.
Proof. intros C L. exact (plain_only_text_w n s ind ln k C (ctxt_lstart s (proj1 C) L)). Qed.
Lemma plain_nil : line_plain [].
Proof.
  split; [intros a b E; destruct a; discriminate|]. split; [|split; [discriminate|]].
  - intros w r Hw. cbn in Hw. repeat (destruct Hw as [<-|Hw]; [discriminate|]). destruct Hw.
  - intros t u pre r Hp. destruct (prefix_head _ _ _ Hp) as (c & q & -> & _). discriminate.
Qed.

(** * Paragraphs *)

Lemma ctx_mv s a r : sees s (a ++ r) -> ctx s -> ctx (mv (length a) s).
Proof. intros H [_ C]. split; [apply (sees_mv _ _ _ H)|exact C]. Qed.
Lemma ctxt_blanks s a r : sees s (a ++ r) -> blanks a -> ctxt s [] -> ctxt (mv (length a) s) [].
Proof.
  intros H B (pre & E & W). exists (pre ++ a). rewrite app_nil_r in *. split; [rewrite (consumed_mv s a r H), E; reflexivity|]. intros _.
  destruct (list_eq_dec byte_eq_dec a []) as [->|Na]; [rewrite app_nil_r; auto|]. right.
  destruct (exists_last Na) as (a' & c & ->). exists (pre ++ a'), c. rewrite <- app_assoc. split; auto.
  apply Forall_app in B as [_ B]. inversion B; subst. destruct c; try discriminate; reflexivity.
Qed.
Definition pline (n : nat) : parser container :=
  delimited (continue_paragraph_ up dp (nested_block_element up dp n)) (paragraph_line up dp) end_of_line_or_input.
Lemma pline_run n s ind c k : sees s (ind ++ cont_src c ++ b_nl :: k) -> blanks ind -> ctxt s [] -> cont_fine c -> only_text n s ->
  got s (pline n s) (length (ind ++ cont_src c) + 1) (fun x => same_cont x c).
Proof.
  intros H B C F (R1 & R2 & R3 & R4 & R5 & R6 & R7 & R8 & R9). pose proof (cont_ne c F) as Ne.
  assert (Nc : exists x t, cont_src c = x :: t /\ is_space x = false /\ x <> b_nl /\ x <> b_cr).
  { destruct (cont_src c) as [|x t] eqn:E; [congruence|]. exists x, t. split; auto. apply (trimmed_head (x :: t) x t); auto. rewrite <- E. apply F. }
  assert (Rb : fails (blank_line s)).
  { destruct Nc as (x & t & E & N1 & N2 & N3). rewrite E in H. apply (no_blank_line s ind x (t ++ b_nl :: k)); auto. }
  unfold pline, delimited, preceded. rewrite <- (Nat.add_0_l (_ + 1)). apply (got_bind s _ 0 (fun _ => True)).
  { unfold continue_paragraph_.
    do 10 (rewrite <- (Nat.add_0_l 0); eapply got_bind; [apply got_pnot; rewrite ?mv_0; assumption|intros ? _]; rewrite ?mv_0).
    now apply got_ret. }
  intros ? _. rewrite mv_0. unfold terminated. apply (got_bind s _ (length (ind ++ cont_src c)) (fun x => same_cont x c)).
  - unfold paragraph_line. assert (Hd : nonblank_head (cont_src c ++ b_nl :: k)).
    { destruct Nc as (z & t & -> & N1 & _). intros y q E. injection E as <- _. exact N1. }
    rewrite (space0_run s ind _ H B Hd). cbn [bind]. rewrite app_length. apply got_shift.
    apply (inner_run c _ (b_nl :: k)); auto; [exact (sees_mv _ _ _ H)|right; eauto|exact (ctxt_blanks s ind _ H B C)].
  - intros y Hy. rewrite app_assoc in H. rewrite (eol_run_nl _ _ (sees_mv _ _ _ H)). cbn [bind]. now apply got_ok.
Qed.
(** A paragraph ends at [s]. *)
Definition par_end (n : nat) (s : span) : Prop := fails (pline n s).
Lemma par_end_blank n s k : sees s k -> line_end k -> ctx s -> lstart s -> remaining_len s < n -> par_end n s.
Proof.
  intros H K C L Hn. assert (T : only_text n s).
  { apply (plain_only_text n s [] [] k); auto; [apply H|constructor|discriminate|apply plain_nil]. }
  destruct T as (R1 & R2 & R3 & R4 & R5 & R6 & R7 & R8 & R9). unfold par_end, pline, delimited, preceded.
  destruct K as [->|[r ->]].
  - apply (fails_bind_got s _ 0 (fun _ => True)).
    + unfold continue_paragraph_. pose proof (no_blank_end s H) as Rb.
      do 10 (rewrite <- (Nat.add_0_l 0); eapply got_bind; [apply got_pnot; rewrite ?mv_0; assumption|intros ? _]; rewrite ?mv_0).
      now apply got_ret.
    + intros ? _. rewrite mv_0. unfold terminated. apply fails_bind. unfold paragraph_line.
      rewrite (space0_none s [] H) by discriminate. cbn [bind]. unfold container_inner. apply fails_pmap.
      unfold inline_element_container. apply fails_located, fails_many1, fails_deeper.
      apply (inline_none up dp lossy Hsch _ []); [now apply sees_deeper|now left].
  - apply fails_bind. unfold continue_paragraph_. destruct (blank_run s r H L) as [o Eo].
    do 6 (eapply fails_bind_got; [apply got_pnot; rewrite ?mv_0; assumption|intros ? _]; rewrite ?mv_0).
    apply fails_bind. unfold pnot. rewrite Eo. exact I.
Qed.
Definition par_lines (ind : str) (cs : list container) : str := nl_lines (map (fun c => ind ++ cont_src c) cs).
Lemma plines_run n ind cs : forall s k, sees s (par_lines ind cs ++ k) -> ctx s -> lstart s -> blanks ind -> remaining_len s < n ->
  Forall (fun c => cont_fine c /\ line_plain (cont_src c)) cs -> par_end n (mv (length (par_lines ind cs)) s) ->
  got s (many0 (pline n) s) (length (par_lines ind cs)) (fun l => Forall2 same_cont l cs).
Proof.
  unfold par_lines. induction cs as [|c cs IH]; intros s k H C L B Hn F E; cbn [map nl_lines flat_map] in *.
  - cbn [length] in *. rewrite mv_0 in E. eapply got_weaken; [exact (got_many0_nil s _ E)|]. intros ? ->. constructor.
  - fold (nl_lines (map (fun c => ind ++ cont_src c) cs)) in *. inversion F as [|? ? [Fc Pc] Fs]; subst.
    set (T := nl_lines (map (fun c => ind ++ cont_src c) cs)) in *.
    assert (H0 : sees s (ind ++ cont_src c ++ b_nl :: T ++ k)) by (rewrite <- !app_assoc in H; exact H).
    assert (H1 : sees s ((ind ++ cont_src c) ++ b_nl :: T ++ k)) by (now rewrite <- app_assoc).
    pose proof (sees_cons _ _ _ _ H1) as H2. assert (Hlen : length (((ind ++ cont_src c) ++ [b_nl]) ++ T) = length (ind ++ cont_src c) + 1 + length T).
    { rewrite (app_length (_ ++ [b_nl])), (app_length _ [b_nl]). reflexivity. }
    rewrite Hlen in *. eapply got_weaken;
      [apply (got_many0_cons s _ _ (length (ind ++ cont_src c) + 1) (length T) (fun x => same_cont x c) (fun l => Forall2 same_cont l cs) H1)|].
    + rewrite (app_length _ (b_nl :: _)). cbn. lia.
    + lia.
    + apply (pline_run n s ind c (T ++ k)); auto; [apply ctxt_lstart; auto; apply H|].
      apply (plain_only_text n s ind (cont_src c) (b_nl :: T ++ k)); auto; [apply H0| |right; eauto].
      intros b r Eb. destruct Fc as (_ & _ & _ & _ & Fc). now apply (trimmed_head _ b r Fc).
    + apply (IH _ k); auto.
      * pose proof (ctx_mv s ((ind ++ cont_src c) ++ [b_nl]) (T ++ k)) as K. rewrite app_length in K. apply K; auto. now rewrite <- app_assoc.
      * exact (lstart_line _ _ _ H1).
      * rewrite (sees_len _ _ H2). rewrite (sees_len _ _ H1), app_length in Hn. cbn in Hn. lia.
      * now rewrite mv_mv.
    + intros l (x & l' & -> & Hx & Hl). now constructor.
Qed.
Lemma paragraph_run n s ind0 ind c cs k : sees s (ind0 ++ cont_src c ++ b_nl :: par_lines ind cs ++ k) -> ctx s -> ctxt s [] -> blanks ind0 -> blanks ind ->
  remaining_len s < n -> only_text n s -> cont_fine c -> Forall (fun c => cont_fine c /\ line_plain (cont_src c)) cs ->
  par_end n (mv (length (ind0 ++ cont_src c) + 1 + length (par_lines ind cs)) s) ->
  got s (paragraph_ up dp (nested_block_element up dp n) s) (length (ind0 ++ cont_src c) + 1 + length (par_lines ind cs))
    (fun x => Forall2 same_cont (l_val x) (c :: cs)).
Proof.
  intros H C X B0 B Hn T F Fs E. unfold paragraph_. apply (got_located s _ _ (fun x => Forall2 same_cont x (c :: cs))).
  assert (H1 : sees s ((ind0 ++ cont_src c) ++ b_nl :: par_lines ind cs ++ k)) by (now rewrite <- app_assoc).
  pose proof (sees_cons _ _ _ _ H1) as H2.
  eapply got_weaken; [eapply (got_many1 s (pline n) _ _ (fun x => same_cont x c) (fun l => Forall2 same_cont l cs))|].
  - exact (pline_run n s ind0 c _ H B0 X F T).
  - apply (plines_run n ind cs _ k); auto.
    + pose proof (ctx_mv s ((ind0 ++ cont_src c) ++ [b_nl]) (par_lines ind cs ++ k)) as K. rewrite app_length in K. apply K; auto. now rewrite <- app_assoc.
    + exact (lstart_line _ _ _ H1).
    + rewrite (sees_len _ _ H2). rewrite (sees_len _ _ H1), app_length in Hn. cbn in Hn. lia.
    + now rewrite mv_mv.
  - intros l (x & l' & -> & Hx & Hl). now constructor.
Qed.
End Blocks.
