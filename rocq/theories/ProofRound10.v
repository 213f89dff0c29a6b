(** Reading back the blocks of a page. *)
From Verif Require Import Base ModelSpan ModelComb ModelAst ModelTable ModelLink ModelInline ModelBlock ModelElem
  SpecDoc SpecBlock SpecTree SpecSpan SpecEq SpecRound ProofBase ProofBytes ProofContract ProofPrim ProofInline ProofLink ProofText
  ProofBlock ProofFence ProofDefs ProofTable ProofList ProofPage ProofClaims2 ProofSpan ProofRound ProofRound2 ProofRound3
  ProofRound4 ProofRound5 ProofRound6 ProofRound7 ProofRound8 ProofRound9 ProofRound13 ProofRound15 ProofRound16 ProofRound14.
From Verif Require ProofEq.
From Coq Require Import Permutation.
Local Open Scope nat_scope.

Section Page.
Variable up : str -> option uri.
Variable dp : str -> option date.
Variable lossy : str -> str.
Variable roman : bool -> Z -> str.
(** The scheme of a URI is the text before its first colon. *)
Hypothesis Hsch : forall t u s, up t = Some u -> u_scheme u = Some s -> In s web_schemes ->
  exists w r, t = w ++ bs ":" ++ r /\ map lower w = s.
Local Notation cont_src := (cont_src lossy).
Local Notation cont_fine := (cont_fine up dp lossy).
Local Notation block_lines := (block_lines lossy roman).
Local Notation block_fine := (block_fine up dp lossy roman).

(** * What a first line rules out *)

Section Line.
Variables (s : span) (ln k : str).
Hypotheses (C : ctx s) (E : remaining s = ln ++ k) (Lk : line_end k) (Nl : no_lead ln).
Lemma first_header : (forall r, ln <> bs "=" ++ r) -> fails (p_header up dp s).
Proof. exact (ProofRound14.first_header up dp lossy s [] ln k C E blanks_nil Lk Nl). Qed.
Lemma first_table : (forall r, ln <> bs "|" ++ r) -> fails (p_table up dp s).
Proof. exact (ProofRound14.first_table up dp lossy s [] ln k C E blanks_nil Lk Nl). Qed.
Lemma first_code : (forall r, ln <> bs "{{{" ++ r) -> fails (p_code_block s).
Proof. exact (ProofRound14.first_code up dp lossy s [] ln k C E blanks_nil Lk Nl). Qed.
Lemma first_math : (forall r, ln <> bs "{{$" ++ r) -> fails (p_math_block s).
Proof. exact (ProofRound14.first_math up dp lossy s [] ln k C E blanks_nil Lk Nl). Qed.
Lemma first_quote : ln <> [] -> (forall r, ln <> bs "> " ++ r) -> fails (p_blockquote s).
Proof.
  intros N1 N2. apply fails_palt; [exact (first_indented s ln k C E Nl N1)|].
  exact (ProofRound14.first_arrow dp lossy s [] ln k C E blanks_nil Lk Nl N2).
Qed.
Lemma first_divider : (forall r, ln <> bs "----" ++ r) -> fails (p_divider s).
Proof. exact (ProofRound14.first_divider up dp lossy s [] ln k C E blanks_nil Lk Nl). Qed.
Lemma first_plist : (forall t u pre r, prefix_ok t u pre -> ln <> pre ++ r) -> fails (p_list up dp s).
Proof. exact (ProofRound14.first_plist up dp s [] ln k C E blanks_nil Lk Nl). Qed.
Lemma first_defs : lstart s -> absent (bs "::") ln -> fails (p_definition_list up dp s).
Proof. intro B. exact (ProofRound14.first_defs up dp s [] ln k C E blanks_nil Lk (ctxt_lstart s (proj1 C) B)). Qed.
End Line.

(** * The blocks of a page *)

Definition block_src (b : block) : str := nl_lines (block_lines b).

(** What follows a block. *)
Definition follows (b : block) (k : str) : Prop :=
  next_starts k (fun l => match b with BBlockquote _ => no_quote l | _ => True end).
Lemma follows_end b k : follows b k -> line_end k.
Proof. apply next_line_end. Qed.

Ltac skip_with tac := apply alt_skip; [apply fails_pmap; tac|].

Lemma header_block h s k : sees s (block_src (BHeader h) ++ k) -> lstart s -> block_fine (BHeader h) ->
  got s (top_level_block_element up dp s) (length (block_src (BHeader h))) (fun x => same_block (l_val x) (BHeader h)).
Proof.
  intros H B [F1 F2]. unfold block_src in *. cbn [block_lines nl_lines flat_map] in *. rewrite app_nil_r in *.
  unfold top_level_block_element. apply alt_take. rewrite <- app_assoc in H. rewrite app_length.
  eapply (block_got _ BHeader (BHeader h) _ _ (fun x => same_cont (h_content x) (h_content h) /\ h_level x = h_level h /\ h_centered x = h_centered h));
    [exact (header_run up dp lossy Hsch h s k H B F1 F2)|].
  intros [x l c] (E1 & E2 & E3) cu. cbn [h_content h_level h_centered] in *. subst l c.
  change (BHeader (Header (n_cont cu nowhere x) (h_level h) (h_centered h)) = BHeader (Header (n_cont cu nowhere (h_content h)) (h_level h) (h_centered h))).
  now rewrite (E1 cu).
Qed.
Lemma divider_block s k : sees s (block_src BDivider ++ k) -> ctx s -> lstart s ->
  got s (top_level_block_element up dp s) (length (block_src BDivider)) (fun x => same_block (l_val x) BDivider).
Proof.
  intros H C B. change (block_src BDivider ++ k) with (bs "----" ++ b_nl :: k) in H.
  assert (E : remaining s = bs "----" ++ b_nl :: k) by apply H. assert (Lk : line_end (b_nl :: k)) by (right; eauto).
  assert (Nl : no_lead (bs "----")) by (intros b r Eb; injection Eb as <- _; reflexivity).
  unfold top_level_block_element.
  skip_with ltac:(apply (first_header s (bs "----") (b_nl :: k)); auto; discriminate).
  skip_with ltac:(apply (first_defs s (bs "----") (b_nl :: k)); auto; intros a b Ea; destruct a as [|? [|? [|? [|? [|]]]]]; discriminate).
  skip_with ltac:(apply (first_plist s (bs "----") (b_nl :: k)); auto).
  2: skip_with ltac:(apply (first_table s (bs "----") (b_nl :: k)); auto; discriminate).
  2: skip_with ltac:(apply (first_code s (bs "----") (b_nl :: k)); auto; discriminate).
  2: skip_with ltac:(apply (first_math s (bs "----") (b_nl :: k)); auto; discriminate).
  2: skip_with ltac:(apply (first_quote s (bs "----") (b_nl :: k)); auto; discriminate).
  2: { apply alt_take. eapply (block_got _ (fun _ => BDivider) BDivider _ _ (fun _ => True)); [exact (divider_run s k H B)|]. intros x _ cu. reflexivity. }
  intros t u pre r Hp Ep. destruct t as [o|[| |]]; cbn in Hp; try contradiction.
  - destruct Hp as (l & -> & [Hl Ho] & _). destruct l as [|c l]; [congruence|]. injection Ep as <- _.
    destruct o; cbn in Ho; repeat match goal with H : Forall _ _ /\ _ |- _ => destruct H as [H _] end;
      try (inversion Ho; subst; cbn in *; intuition discriminate).
  - destruct Hp as [-> _]. discriminate.
  - destruct Hp as [-> _]. discriminate.
Qed.

Lemma placeholder_head p : exists t, placeholder_line p = x25 :: t.
Proof. destruct p; eexists; reflexivity. Qed.
Lemma placeholder_block p s k : sees s (block_src (BPlaceholder p) ++ k) -> ctx s -> lstart s -> block_fine (BPlaceholder p) ->
  got s (top_level_block_element up dp s) (length (block_src (BPlaceholder p))) (fun x => same_block (l_val x) (BPlaceholder p)).
Proof.
  intros H C B [F1 F2]. unfold block_src in *. cbn [block_lines nl_lines flat_map] in *. rewrite app_nil_r in *. rewrite <- app_assoc in H. rewrite app_length.
  pose proof (placeholder_run dp s p k H B F1) as G. destruct (placeholder_head p) as [t Et].
  unfold no_colons in F2. set (ln := placeholder_line p) in *.
  assert (E : remaining s = ln ++ b_nl :: k) by apply H. assert (Lk : line_end (b_nl :: k)) by (right; eauto).
  assert (Nl : no_lead ln) by (intros b r Eb; rewrite Et in Eb; injection Eb as <- _; reflexivity).
  unfold top_level_block_element.
  skip_with ltac:(apply (first_header s ln (b_nl :: k)); auto; rewrite Et; other_head).
  skip_with ltac:(apply (first_defs s ln (b_nl :: k)); auto).
  skip_with ltac:(apply (first_plist s ln (b_nl :: k)); auto; rewrite Et; apply no_item; reflexivity).
  skip_with ltac:(apply (first_table s ln (b_nl :: k)); auto; rewrite Et; other_head).
  skip_with ltac:(apply (first_code s ln (b_nl :: k)); auto; rewrite Et; other_head).
  skip_with ltac:(apply (first_math s ln (b_nl :: k)); auto; rewrite Et; other_head).
  skip_with ltac:(apply (first_quote s ln (b_nl :: k)); auto; [rewrite Et; discriminate|rewrite Et; other_head]).
  skip_with ltac:(apply (first_divider s ln (b_nl :: k)); auto; rewrite Et; other_head).
  apply alt_take. eapply (block_got _ BPlaceholder _ _ _ (fun x => x = p)); [exact G|]. intros x -> cu. reflexivity.
Qed.
Lemma math_block_run m s k : sees s (block_src (BMath m) ++ k) -> ctx s -> lstart s -> block_fine (BMath m) ->
  got s (top_level_block_element up dp s) (length (block_src (BMath m))) (fun x => same_block (l_val x) (BMath m)).
Proof.
  intros H C B (F1 & F2 & F3). unfold block_src in *. cbn [block_lines] in *.
  pose proof (math_run s m k H F1 F2) as G. unfold math_lines in H at 1. cbn [nl_lines flat_map] in H. cbn [block_lines math_lines firstn] in F3.
  inversion F3 as [|? ? F _]; subst. unfold no_colons in F. set (ln := bs "{{$" ++ env_text (mb_env m)) in *.
  match type of H with sees _ (((ln ++ [b_nl]) ++ ?x) ++ k) => set (k1 := x ++ k) in * end.
  assert (E : remaining s = ln ++ b_nl :: k1) by (destruct H as [_ H]; rewrite H, <- !app_assoc; reflexivity). assert (Lk : line_end (b_nl :: k1)) by (right; eauto).
  assert (Et : exists t, ln = x7b :: t) by (eexists; reflexivity). destruct Et as [t Et].
  assert (Nl : no_lead ln) by (intros b r Eb; rewrite Et in Eb; injection Eb as <- _; reflexivity).
  unfold top_level_block_element.
  skip_with ltac:(apply (first_header s ln (b_nl :: k1)); auto; rewrite Et; other_head).
  skip_with ltac:(apply (first_defs s ln (b_nl :: k1)); auto).
  skip_with ltac:(apply (first_plist s ln (b_nl :: k1)); auto; rewrite Et; apply no_item; reflexivity).
  skip_with ltac:(apply (first_table s ln (b_nl :: k1)); auto; rewrite Et; other_head).
  skip_with ltac:(apply (first_code s ln (b_nl :: k1)); auto; unfold ln; intros r Er; discriminate).
  apply alt_take. eapply (block_got _ BMath _ _ _ (fun x => x = m)); [exact G|]. intros x -> cu. reflexivity.
Qed.
Lemma code_block_run c s k : sees s (block_src (BCode c) ++ k) -> ctx s -> lstart s -> block_fine (BCode c) ->
  got s (top_level_block_element up dp s) (length (block_src (BCode c))) (fun x => same_block (l_val x) (BCode c)).
Proof.
  intros H C B (F0 & F1 & F2 & F2' & F3). unfold block_src in *. cbn [block_lines] in *.
  assert (F1' : Forall attr_fine (n_map (cb_meta c))).
  { eapply Permutation_Forall; [|exact F1]. apply Permutation_sym, ProofEq.by_key_perm. }
  pose proof (code_run s c (n_map (cb_meta c)) k H F2 F1' F2') as G. unfold code_lines in H at 1. cbn [nl_lines flat_map] in H. cbn [block_lines code_lines firstn] in F3.
  inversion F3 as [|? ? F _]; subst. unfold no_colons in F. set (ln := bs "{{{" ++ code_head _ _) in *.
  match type of H with sees _ (((ln ++ [b_nl]) ++ ?x) ++ k) => set (k1 := x ++ k) in * end.
  assert (E : remaining s = ln ++ b_nl :: k1) by (destruct H as [_ H]; rewrite H, <- !app_assoc; reflexivity). assert (Lk : line_end (b_nl :: k1)) by (right; eauto).
  assert (Et : exists t, ln = x7b :: t) by (eexists; reflexivity). destruct Et as [t Et].
  assert (Nl : no_lead ln) by (intros b r Eb; rewrite Et in Eb; injection Eb as <- _; reflexivity).
  unfold top_level_block_element.
  skip_with ltac:(apply (first_header s ln (b_nl :: k1)); auto; rewrite Et; other_head).
  skip_with ltac:(apply (first_defs s ln (b_nl :: k1)); auto).
  skip_with ltac:(apply (first_plist s ln (b_nl :: k1)); auto; rewrite Et; apply no_item; reflexivity).
  skip_with ltac:(apply (first_table s ln (b_nl :: k1)); auto; rewrite Et; other_head).
  apply alt_take. eapply (block_got _ BCode _ _ _ (fun x => x = CodeBlock (cb_lang c) (collect_map (n_map (cb_meta c))) (cb_lines c))); [exact G|].
  intros x -> cu. cbn [n_block cb_lang cb_meta cb_lines]. now rewrite n_map_collect.
Qed.
Lemma quote_block ls s k : sees s (block_src (BBlockquote ls) ++ k) -> ctx s -> lstart s -> block_fine (BBlockquote ls) -> follows (BBlockquote ls) k ->
  got s (top_level_block_element up dp s) (length (block_src (BBlockquote ls))) (fun x => same_block (l_val x) (BBlockquote ls)).
Proof.
  intros H C B (F0 & F1 & F3) K. unfold block_src in *. cbn [block_lines] in *.
  assert (F1' : Forall quote_fine ls) by (eapply Forall_impl; [|exact F1]; now intros ? [? _]).
  pose proof (arrow_run s ls k H B F0 F1' K) as G. destruct ls as [|l ls]; [congruence|].
  cbn [quote_lines map nl_lines flat_map block_lines firstn] in H, F3. inversion F3 as [|? ? F _]; subst. unfold no_colons in F. set (ln := bs "> " ++ l) in *.
  match type of H with sees _ (((ln ++ [b_nl]) ++ ?x) ++ k) => set (k1 := x ++ k) in * end.
  assert (E : remaining s = ln ++ b_nl :: k1) by (destruct H as [_ H]; rewrite H, <- !app_assoc; reflexivity). assert (Lk : line_end (b_nl :: k1)) by (right; eauto).
  assert (Et : exists t, ln = x3e :: t) by (eexists; reflexivity). destruct Et as [t Et].
  assert (Nl : no_lead ln) by (intros b r Eb; rewrite Et in Eb; injection Eb as <- _; reflexivity).
  unfold top_level_block_element.
  skip_with ltac:(apply (first_header s ln (b_nl :: k1)); auto; rewrite Et; other_head).
  skip_with ltac:(apply (first_defs s ln (b_nl :: k1)); auto).
  skip_with ltac:(apply (first_plist s ln (b_nl :: k1)); auto; rewrite Et; apply no_item; reflexivity).
  skip_with ltac:(apply (first_table s ln (b_nl :: k1)); auto; rewrite Et; other_head).
  skip_with ltac:(apply (first_code s ln (b_nl :: k1)); auto; rewrite Et; other_head).
  skip_with ltac:(apply (first_math s ln (b_nl :: k1)); auto; rewrite Et; other_head).
  apply alt_take. eapply (block_got _ BBlockquote _ _ _ (fun x => x = l :: ls)); [|intros x -> cu; reflexivity].
  unfold p_blockquote. apply got_palt_r; [|exact G]. apply (first_indented s ln (b_nl :: k1)); auto. rewrite Et. discriminate.
Qed.
Lemma paragraph_block ls s k : sees s (block_src (BParagraph ls) ++ k) -> ctx s -> lstart s -> block_fine (BParagraph ls) -> line_end k ->
  got s (top_level_block_element up dp s) (length (block_src (BParagraph ls))) (fun x => same_block (l_val x) (BParagraph ls)).
Proof.
  intros H C B (F0 & F1) K. unfold block_src in *. cbn [block_lines] in *. destruct ls as [|c cs]; [congruence|].
  inversion F1 as [|? ? [Fc Pc] Fs]; subst. cbn [map nl_lines flat_map] in *.
  assert (Ep : flat_map (fun l => l ++ [b_nl]) (map cont_src cs) = par_lines lossy [] cs) by reflexivity. rewrite Ep in *. clear Ep.
  set (ln := cont_src c) in *. set (k1 := par_lines lossy [] cs ++ k).
  assert (H0 : sees s (ln ++ b_nl :: k1)) by (unfold k1; rewrite <- !app_assoc in H; exact H).
  assert (E : remaining s = ln ++ b_nl :: k1) by apply H0. assert (Lk : line_end (b_nl :: k1)) by (right; eauto).
  assert (Nl : no_lead ln).
  { intros b r Eb. destruct Fc as (_ & _ & _ & _ & Fc). now apply (trimmed_head _ b r Fc). }
  assert (T : only_text up dp (S (remaining_len s)) s).
  { apply (plain_only_text up dp lossy _ s [] ln (b_nl :: k1)); auto. constructor. }
  unfold top_level_block_element. pose proof T as (R1 & R2 & R3 & R4 & R5 & R6 & R7 & R8 & R9).
  skip_with ltac:(exact R1). skip_with ltac:(exact R2). skip_with ltac:(exact R3). skip_with ltac:(exact R4).
  skip_with ltac:(exact R5). skip_with ltac:(exact R6).
  skip_with ltac:(apply fails_palt; [|exact R7]; exact (first_indented s ln (b_nl :: k1) C E Nl (cont_ne up dp lossy Hsch c Fc))).
  skip_with ltac:(exact R8). skip_with ltac:(exact R9).
  apply alt_take. eapply (block_got _ BParagraph _ _ _ (fun x => Forall2 same_cont x (c :: cs))).
  2: { intros x Hx cu. change (BParagraph (map (n_cont cu nowhere) x) = BParagraph (map (n_cont cu nowhere) (c :: cs))). f_equal. exact (same_conts _ _ cu Hx). }
  rewrite !app_length. change (length [b_nl]) with 1.
  assert (X : ctxt s []) by exact (ctxt_lstart s (sees_ok _ _ H0) B).
  refine (paragraph_run up dp lossy Hsch (S (remaining_len s)) s [] [] c cs k H0 C X (Forall_nil _) (Forall_nil _) (Nat.lt_succ_diag_r _) T Fc Fs _).
  { cbn [app]. fold ln.
    assert (H1 : sees s ((ln ++ [b_nl] ++ par_lines lossy [] cs) ++ k)) by (rewrite <- !app_assoc; exact H0).
    pose proof (sees_mv _ _ _ H1) as H2. pose proof (ctx_mv _ _ _ H1 C) as C2. rewrite !app_length, Nat.add_assoc in H2, C2. change (length [b_nl]) with 1 in *.
    refine (par_end_blank up dp lossy Hsch _ _ k H2 K C2 (lstart_lines s ln _ k H0) _).
    rewrite (sees_len _ _ H2), (sees_len _ _ H1), app_length. lia. }
Qed.
Lemma list_block items s k : sees s (block_src (BList items) ++ k) -> ctx s -> lstart s -> block_fine (BList items) -> line_end k ->
  got s (top_level_block_element up dp s) (length (block_src (BList items))) (fun x => same_block (l_val x) (BList items)).
Proof.
  intros H C B F K. unfold block_src in *. rewrite <- (ind_nil (block_lines (BList items))) in *. fold (ind_src [] (block_lines (BList items))) in *.
  destruct (list_first up dp lossy roman Hsch items s [] k H C B blanks_nil F) as [R1 R2].
  unfold top_level_block_element. skip_with ltac:(exact R1). skip_with ltac:(exact R2). apply alt_take.
  eapply (block_got _ BList _ _ _ (fun x => same_block (BList x) (BList items))); [|intros x Hx; exact Hx].
  refine (list_run up dp lossy roman Hsch _ s [] items k H C B blanks_nil (Nat.lt_succ_diag_r _) F _ (reads_items up dp lossy roman Hsch items)).
  destruct K as [->|[r ->]]; [now left|]. right. exists [], b_nl, r. split; [reflexivity|]. split; [constructor|]. split; [apply Nat.le_refl|].
  split; [reflexivity|]. apply no_item. reflexivity.
Qed.
Lemma deflist_block d s k : sees s (block_src (BDefList d) ++ k) -> ctx s -> lstart s -> block_fine (BDefList d) -> line_end k ->
  got s (top_level_block_element up dp s) (length (block_src (BDefList d))) (fun x => same_block (l_val x) (BDefList d)).
Proof.
  intros H C B F K. unfold block_src in *. rewrite <- (ind_nil (block_lines (BDefList d))) in *. fold (ind_src [] (block_lines (BDefList d))) in *.
  unfold top_level_block_element. skip_with ltac:(exact (defs_first up dp lossy roman Hsch d s [] k H C blanks_nil F)). apply alt_take.
  eapply (block_got _ BDefList _ _ _ (fun x => same_deflist x d)); [|intros x Hx; exact Hx].
  refine (defs_run up dp lossy Hsch d [] s k blanks_nil H C B (proj1 F) (proj2 F) _).
  exists [], k. split; [reflexivity|]. split; [exact K|]. intros a b. destruct a; discriminate.
Qed.
Lemma end_no_bar k : line_end k -> no_bar k.
Proof.
  intros [->|[k1 ->]] a q Ba E; [destruct a; discriminate|]. destruct Ba as [|y a Y _]; [discriminate|]. injection E as <- _. discriminate Y.
Qed.
Lemma table_src t : exists ind, block_src (BTable t) = rows_src lossy ind (grid lossy t) /\ blanks ind /\ negb (is_nil ind) = t_centered t.
Proof.
  exists (if t_centered t then bs "    " else []). unfold block_src. change (block_lines (BTable t)) with (table_lines lossy t). rewrite rows_src_ind, <- row_lines_eq.
  split; [reflexivity|]. destruct (t_centered t); (split; [repeat constructor|reflexivity]).
Qed.
Lemma table_block t s k : sees s (block_src (BTable t) ++ k) -> ctx s -> lstart s -> block_fine (BTable t) -> line_end k ->
  got s (top_level_block_element up dp s) (length (block_src (BTable t))) (fun x => same_block (l_val x) (BTable t)).
Proof.
  intros H C L F K. change (block_fine (BTable t)) with (table_fine up dp lossy t) in F. destruct (table_src t) as (ind & Es & B & Ec). rewrite Es in *.
  pose proof (table_run up dp lossy Hsch t ind s k H B (end_no_bar k K) F) as G. destruct (row_lines_head up dp lossy t F) as (r & ls & Er & A).
  assert (E : exists k1, remaining s = ind ++ (x7c :: r) ++ b_nl :: k1).
  { destruct H as [_ H]. rewrite H, rows_src_ind, <- row_lines_eq, Er. cbn [map nl_lines flat_map]. rewrite <- !app_assoc. cbn [app]. rewrite <- ?app_assoc. eauto. }
  destruct E as [k1 E]. assert (Lk : line_end (b_nl :: k1)) by (right; eauto).
  set (ln := x7c :: r) in *. assert (Nl : no_lead ln) by (intros b q Eb; injection Eb as <- _; reflexivity).
  unfold top_level_block_element.
  skip_with ltac:(apply (ProofRound14.first_header up dp lossy s ind ln (b_nl :: k1)); try assumption; other_head).
  skip_with ltac:(exact (ProofRound14.first_defs up dp s ind ln (b_nl :: k1) C E B Lk (ctxt_lstart s (proj1 C) L) A)).
  skip_with ltac:(apply (ProofRound14.first_plist up dp s ind ln (b_nl :: k1)); try assumption; apply no_item; reflexivity).
  apply alt_take. eapply (block_got _ BTable _ _ _ (fun x => same_table x t)).
  - eapply got_weaken; [exact G|]. cbn beta. intros x Hx. rewrite Ec in Hx. intro cu. rewrite Hx. now destruct t.
  - intros x Hx cu. cbn [n_block]. f_equal. apply Hx.
Qed.
Lemma block_run b s k : sees s (block_src b ++ k) -> ctx s -> lstart s -> block_fine b -> follows b k ->
  got s (top_level_block_element up dp s) (length (block_src b)) (fun x => same_block (l_val x) b).
Proof.
  intros H C B F K. destruct b; try contradiction F.
  - now apply (quote_block _ s k).
  - apply (deflist_block _ s k); auto. exact (follows_end _ _ K).
  - now apply (divider_block s k).
  - now apply (header_block _ s k).
  - apply (list_block _ s k); auto. exact (follows_end _ _ K).
  - now apply (math_block_run _ s k).
  - apply (paragraph_block _ s k); auto. exact (follows_end _ _ K).
  - now apply (placeholder_block _ s k).
  - now apply (code_block_run _ s k).
  - apply (table_block _ s k); auto. exact (follows_end _ _ K).
Qed.

(** * Pages *)

Lemma block_starts b : block_fine b -> exists a c r, block_src b = a ++ c :: r /\ blanks a /\ is_space c = false /\ c <> b_nl /\ c <> b_cr /\
  match b with BBlockquote _ => True | _ => forall k, no_quote (c :: r ++ k) end.
Proof.
  intro F. unfold block_src. destruct b as [ls|d| |h|l|m|ls|p|c|t]; try contradiction F; cbn [block_lines].
  - destruct F as [F _]. destruct ls as [|l ls]; [congruence|]. exists [], x3e. eexists. split; [reflexivity|]. repeat split; try discriminate. constructor.
  - destruct (block_head up dp lossy roman Hsch _ F I) as (c & r & ls & E & N1 & N2 & N3 & _ & N5 & _).
    match goal with |- context [nl_lines ?x] => change x with (SpecRound.block_lines lossy roman (BDefList d)) end. rewrite E. cbn [nl_lines flat_map].
    exists [], c. eexists. split; [cbn [app]; reflexivity|]. repeat (split; [assumption || constructor|]).
    intro k. pose proof (line_quote (c :: r) (flat_map (fun l => l ++ [b_nl]) ls ++ k)) as Q. cbn [app] in *. rewrite <- !app_assoc. exact (Q N5).
  - exists [], x2d. eexists. split; [reflexivity|]. repeat split; try discriminate. constructor.
  - destruct F as [F _]. unfold header_line. destruct (h_level h) as [|n]; [lia|]. cbn [nl_lines flat_map]. cbn [repeat].
    exists (if h_centered h then bs "    " else []), x3d. eexists. split; [rewrite <- !app_assoc; reflexivity|].
    split; [destruct (h_centered h); repeat constructor|]. repeat split; try discriminate.
  - destruct (block_head up dp lossy roman Hsch _ F I) as (c & r & ls & E & N1 & N2 & N3 & _ & N5 & _).
    match goal with |- context [nl_lines ?x] => change x with (SpecRound.block_lines lossy roman (BList l)) end. rewrite E. cbn [nl_lines flat_map].
    exists [], c. eexists. split; [cbn [app]; reflexivity|]. repeat (split; [assumption || constructor|]).
    intro k. pose proof (line_quote (c :: r) (flat_map (fun l => l ++ [b_nl]) ls ++ k)) as Q. cbn [app] in *. rewrite <- !app_assoc. exact (Q N5).
  - exists [], x7b. eexists. split; [reflexivity|]. repeat split; try discriminate. constructor.
  - destruct F as [F0 F]. destruct ls as [|c cs]; [congruence|]. inversion F as [|? ? [Fc Pc] _]; subst.
    pose proof (cont_ne up dp lossy Hsch c Fc) as Ne. destruct (cont_src c) as [|x q] eqn:Ec; [congruence|].
    destruct (trimmed_head (x :: q) x q) as (T1 & T2 & T3); [rewrite <- Ec; apply Fc|reflexivity|].
    exists [], x. eexists. split; [cbn [map nl_lines flat_map]; rewrite Ec; cbn [app]; reflexivity|]. repeat split; auto; [constructor|].
    intro k. destruct Pc as (_ & Pc & _). pose proof (line_quote (x :: q) (flat_map (fun l => l ++ [b_nl]) (map cont_src cs) ++ k)) as Q.
    cbn [app] in *. rewrite <- !app_assoc. apply Q. intro r. apply Pc. cbn; auto 6.
  - destruct (placeholder_head p) as [t Et]. rewrite Et. exists [], x25. eexists. split; [reflexivity|]. repeat split; try discriminate. constructor.
  - exists [], x7b. eexists. split; [reflexivity|]. repeat split; try discriminate. constructor.
  - destruct (table_src t) as (ind & Es & B & _). unfold block_src in Es. cbn [block_lines] in Es. rewrite Es. destruct (row_lines_head up dp lossy t F) as (r & ls & Er & A).
    rewrite rows_src_ind, <- row_lines_eq, Er. cbn [map nl_lines flat_map]. rewrite <- !app_assoc. cbn [app]. exists ind, x7c. eexists. split; [reflexivity|].
    repeat (split; [assumption || reflexivity || discriminate|]). intros k r0 Eq. discriminate.
Qed.

Lemma page_src_cons b p : page_src lossy roman (b :: p) = block_src (l_val b) ++ match p with [] => [] | _ => b_nl :: page_src lossy roman p end.
Proof. unfold page_src. destruct p; cbn [map join]; [now rewrite app_nil_r|reflexivity]. Qed.
Lemma page_end s : sees s [] -> ctx s -> lstart s -> fails (maybe_block_element up dp s).
Proof.
  intros H C B. assert (T : only_text up dp (S (remaining_len s)) s).
  { apply (plain_only_text up dp lossy _ s [] [] []); auto; [apply H|constructor|discriminate|now left|apply plain_nil]. }
  pose proof T as (R1 & R2 & R3 & R4 & R5 & R6 & R7 & R8 & R9).
  assert (P : par_end up dp (S (remaining_len s)) s).
  { exact (par_end_blank up dp lossy Hsch _ s [] H (or_introl eq_refl) C B (Nat.lt_succ_diag_r _)). }
  unfold maybe_block_element. apply fails_palt; [unfold value; apply fails_pmap, no_blank_end, H|]. apply fails_pmap.
  unfold top_level_block_element. cbn [alt]. 
  do 6 (apply fails_palt; [apply fails_pmap; assumption|]). apply fails_palt; [apply fails_pmap|].
  2: do 2 (apply fails_palt; [apply fails_pmap; assumption|]); apply fails_palt; [apply fails_pmap|exact I].
  - apply fails_palt; [|exact R7]. apply (no_indented s C). destruct H as [_ ->]. intros a r _ La E. destruct a; [cbn in La; lia|discriminate].
  - apply fails_located, fails_many1. exact P.
Qed.
Lemma page_many p : forall s, sees s (page_src lossy roman p) -> ctx s -> lstart s -> page_fine up dp lossy roman p ->
  got s (many0 (maybe_block_element up dp) s) (length (page_src lossy roman p)) (fun l => same_blocks (flatten_opt l) p).
Proof.
  induction p as [|b p IH]; intros s H C B [F A].
  - eapply got_weaken; [exact (got_many0_nil s _ (page_end s H C B))|]. intros ? ->. constructor.
  - inversion F as [|? ? Fb Fp]; subst. destruct A as [A Ap]. rewrite page_src_cons in *. set (k := match p with [] => [] | _ => b_nl :: page_src lossy roman p end) in *.
    assert (K : follows (l_val b) k).
    { unfold k, follows. destruct p as [|b' p]; [now left|]. right. inversion Fp as [|? ? Fb' _]; subst.
      destruct (block_starts _ Fb') as (a & c & r & Es & Ba & N1 & N2 & N3 & Q). rewrite page_src_cons, Es.
      exists a, c. eexists. split; [rewrite <- app_assoc; reflexivity|]. repeat (split; [assumption|]).
      destruct (l_val b); auto. destruct (l_val b'); try contradiction A; apply Q. }
    destruct (block_starts _ Fb) as (a & c & r & Es & Ba & N1 & N2 & N3 & _).
    pose proof (sees_mv _ _ _ H) as H1. pose proof (ctx_mv _ _ _ H C) as C1. pose proof (lstart_nl s _ k H B) as B1.
    rewrite app_length. eapply got_weaken; [apply (got_many0_cons s _ _ (length (block_src (l_val b))) (length k)
      (fun o => exists x, o = Some x /\ same_block (l_val x) (l_val b)) (fun l => same_blocks (flatten_opt l) p) H)|].
    + rewrite app_length. lia.
    + rewrite Es, app_length. cbn. lia.
    + unfold maybe_block_element. apply got_palt_r.
      * unfold value. apply fails_pmap. apply (no_blank_line s a c (r ++ k)); auto. rewrite Es, <- app_assoc in H. exact H.
      * eapply got_pmap; [exact (block_run (l_val b) s k H C B Fb K)|]. eauto.
    + unfold k in *. clear k. destruct p as [|b' p].
      * cbn [length]. eapply got_weaken; [exact (got_many0_nil _ _ (page_end _ H1 C1 B1))|]. intros ? ->. constructor.
      * set (s1 := mv (length (block_src (l_val b))) s) in *. change (length (b_nl :: page_src lossy roman (b' :: p))) with (1 + length (page_src lossy roman (b' :: p))).
        eapply got_weaken; [apply (got_many0_cons s1 _ _ 1 (length (page_src lossy roman (b' :: p)))
          (fun o => o = None) (fun l => same_blocks (flatten_opt l) (b' :: p)) H1)|].
        -- cbn. lia.
        -- lia.
        -- apply got_palt_l. destruct (blank_run s1 _ H1 B1) as [o Eo]. unfold value, pmap. rewrite Eo. cbn [bind]. now apply got_ok.
        -- apply IH; auto.
           ++ exact (sees_mv s1 [b_nl] _ H1).
           ++ exact (ctx_mv s1 [b_nl] _ H1 C1).
           ++ exact (lstart_line s1 [] _ H1).
           ++ split; auto.
        -- intros l (x & l' & -> & -> & Hl). exact Hl.
    + intros l (x & l' & -> & (y & -> & Hy) & Hl). cbn [flatten_opt flat_map app]. constructor; auto.
Qed.
Theorem page_reads p : page_fine up dp lossy roman p ->
  got (span_of (page_src lossy roman p)) (parse_page up dp (page_src lossy roman p)) (length (page_src lossy roman p)) (fun l => same_blocks l p).
Proof.
  intro F. set (s := span_of (page_src lossy roman p)). assert (H : sees s (page_src lossy roman p)).
  { split; [unfold s, span_of, span_ok; cbn; lia|]. unfold s, span_of, remaining, slice. cbn. now rewrite Nat.sub_0_r, firstn_all. }
  unfold parse_page, p_page. fold s. eapply got_pmap with (P := fun l => same_blocks (flatten_opt l) p); [|auto].
  unfold all_consuming. rewrite <- (Nat.add_0_r (length _)).
  eapply (got_bind s _ (length (page_src lossy roman p)) (fun l => same_blocks (flatten_opt l) p)).
  - apply page_many; auto.
    + split; [apply H|left; reflexivity].
    + left. reflexivity.
  - intros x Hx. replace (page_src lossy roman p) with (page_src lossy roman p ++ []) in H by apply app_nil_r. apply sees_mv in H.
    rewrite (sees_len _ _ H). cbn [length Nat.eqb]. split; [now rewrite mv_0|exact Hx].
Qed.
Lemma same_page cu l p : same_blocks l p -> full_content_of cu l = full_content_of cu p.
Proof.
  unfold full_content_of, n_page. induction 1 as [|x b l p Hx _ IH]; cbn [map]; [reflexivity|]. f_equal; [|exact IH].
  unfold n_loc. f_equal. apply Hx.
Qed.
End Page.
