(** Two runs of the block parsers side by side. *)
From Verif Require Import Base ModelAst ModelTable ModelLink ModelInline ModelBlock ModelSpan ModelComb
  SpecDoc SpecTree SpecSpan SpecEq SpecLines ProofBase ProofBytes ProofSpan ProofPrim ProofClaims ProofLines1 ProofLines2 ProofLines3.

Section Twin.
Context {E : twin}.
Variable up : str -> option uri.
Variable dp : str -> option date.

Ltac cl := split; vm_compute; intuition discriminate.
Ltac nn := discriminate.
Ltac step L := eapply rel_bind; [apply (simp_at _ _ _ _ _ L); assumption|]; intros.
Ltac fin := apply rel_ok; [assumption|].
Notation NC := (n_cont (fun u => u) nowhere).
Notation NCELL := (n_cell (fun u => u) nowhere).
Notation NTD := (n_td nowhere NC).
Notation NB := (n_block (fun u => u) nowhere NC).
Notation NITEM := (n_item (fun u => u) nowhere NC).
Notation inner := (container_inner up dp).

(** * Parsers on a line *)

Lemma lineE s s' n : simL s s' -> n <= remaining_len s -> simL (advance_end_by n s) (advance_end_by n s').
Proof.
  intros [Hs N] L. destruct (sim_len _ _ Hs) as [L1 _]. rewrite L1 in L. destruct (sim_rem _ _ Hs) as [R1 _].
  assert (NN : no_nl (firstn n (u (k s)))) by (rewrite <- R1; now apply no_nl_firstn).
  destruct (sim_end s s' n n Hs L) as [A B]; [symmetry; now apply w_len_line|]. split; [exact A|].
  rewrite (proj1 (sim_rem _ _ A)), B, <- u_firstn. exact NN.
Qed.
Lemma lineS s s' n : simL s s' -> n <= remaining_len s -> simL (advance_start_by n s) (advance_start_by n s').
Proof.
  intros [Hs N] L. destruct (sim_len _ _ Hs) as [L1 _]. rewrite L1 in L. destruct (sim_rem _ _ Hs) as [R1 _].
  assert (NN : no_nl (firstn n (u (k s)))) by (rewrite <- R1; now apply no_nl_firstn).
  destruct (sim_adv s s' n n Hs L) as (A & B & _); [symmetry; now apply w_len_line|]. split; [exact A|].
  rewrite (proj1 (sim_rem _ _ A)), B, <- u_skipn, <- R1. now apply no_nl_skipn.
Qed.
Definition relL {A} (R : A -> A -> Prop) (r r' : res A) : Prop :=
  match r, r' with
  | Ok s a, Ok s' a' => simL s s' /\ R a a'
  | Err, Err => True
  | Panic, Panic => True
  | OutOfFuel, OutOfFuel => True
  | _, _ => False
  end.
Lemma relL_bind {A B} (R : A -> A -> Prop) (Q : B -> B -> Prop) r r' f f' :
  relL R r r' -> (forall s s' a a', simL s s' -> R a a' -> rel Q (f s a) (f' s' a')) -> rel Q (bind r f) (bind r' f').
Proof. destruct r, r'; simpl; try tauto; intros H W; auto. destruct H. now apply W. Qed.
Lemma relL_bindL {A B} (R : A -> A -> Prop) (Q : B -> B -> Prop) r r' f f' :
  relL R r r' -> (forall s s' a a', simL s s' -> R a a' -> relL Q (f s a) (f' s' a')) -> relL Q (bind r f) (bind r' f').
Proof. destruct r, r'; simpl; try tauto; intros H W; auto. destruct H. now apply W. Qed.
Lemma line_trim_trailing s s' : simL s s' -> relL any (trim_trailing_whitespace s) (trim_trailing_whitespace s').
Proof.
  intro Hs. unfold trim_trailing_whitespace, rest_len, count_trailing_whitespace. cbn [bind].
  rewrite (proj1 (simL_rem _ _ Hs)), (simL_len _ _ Hs). split; [|exact I]. apply lineE; auto. lia.
Qed.
Lemma line_space0 s s' : simL s s' -> relL any (space0 s) (space0 s').
Proof.
  intro Hs. unfold space0, take_while0, ok_split. rewrite (proj1 (simL_rem _ _ Hs)). split; [|exact I]. apply lineS; auto.
  destruct (sim_ok _ _ (proj1 Hs)) as [O _]. rewrite remaining_len_eq by auto. apply count_while_le.
Qed.
Lemma line_trim s s' : simL s s' -> relL any (trim_whitespace s) (trim_whitespace s').
Proof.
  intro Hs. unfold trim_whitespace. eapply relL_bindL; [now apply line_space0|]. intros.
  eapply relL_bindL; [now apply line_trim_trailing|]. intros. split; [assumption|exact I].
Qed.
Lemma line_take_end n s s' : simL s s' -> relL simL (take_end n s) (take_end n s').
Proof.
  intro Hs. unfold take_end. cbv zeta. rewrite (simL_len _ _ Hs). destruct (_ <? n); [exact I|]. split; [apply lineE|apply lineS]; auto; lia.
Qed.
Lemma line_take n s s' : simL s s' -> relL simL (take n s) (take n s').
Proof.
  intro Hs. unfold take. rewrite (simL_len _ _ Hs). destruct (n <=? _) eqn:C; [|exact I]. apply Nat.leb_le in C.
  split; [apply lineS|apply lineE]; auto.
Qed.
Lemma line_verify {A} (R : A -> A -> Prop) p (f : A -> bool) s s' : relL R (p s) (p s') -> (forall a a', R a a' -> f a' = f a) ->
  relL R (verify p f s) (verify p f s').
Proof. intros H W. eapply relL_bindL; [exact H|]. intros t t' a a' Ht Ha. rewrite (W _ _ Ha). destruct (f a); simpl; auto. Qed.
Lemma line_peek {A} (R : A -> A -> Prop) p s s' : simL s s' -> relL R (p s) (p s') -> relL R (@peek A p s) (peek p s').
Proof. intros Hs H. eapply relL_bindL; [exact H|]. intros. split; auto. Qed.
Lemma oow_same o o' : simL o o' -> is_only_whitespace o' = is_only_whitespace o.
Proof. intro H. unfold is_only_whitespace. now rewrite (proj1 (simL_rem _ _ H)), (simL_len _ _ H). Qed.

(** * Headers, dividers, placeholders *)

Definition Rh (h h' : header) : Prop := n_header (fun u => u) nowhere h = n_header (fun u => u) nowhere h'.
Lemma simp_header_tail n : simp Rc (header_tail up dp n) (header_tail up dp n).
Proof.
  intros s s' Hs. unfold header_tail. step simp_to_eol.
  eapply relL_bind; [apply line_trim_trailing; eassumption|]. intros.
  eapply relL_bind; [eapply line_verify; [apply line_take_end; eassumption|]|].
  { intros x x' Hx. now rewrite (proj1 (simL_rem _ _ Hx)). }
  intros. eapply relL_bind; [eapply line_peek; [eassumption|]; eapply line_verify; [apply line_take; eassumption|]|].
  { intros x x' Hx. now rewrite (proj1 (simL_rem _ _ Hx)). }
  intros. eapply relL_bind; [eapply line_peek; [eassumption|]; eapply line_verify; [apply line_take_end; eassumption|]|].
  { intros x x' Hx. now rewrite (proj1 (simL_rem _ _ Hx)). }
  intros. eapply relL_bind; [apply line_trim; eassumption|]. intros.
  eapply rel_bind; [apply (simp_inner up dp); eapply simL_sim; eassumption|]. intros. now apply rel_ok.
Qed.
Lemma simp_header : simp (RL Rh) (p_header up dp) (p_header up dp).
Proof.
  apply simp_located. intros s s' Hs. step simp_bol.
  step (simp_pmap simL eq _ _ non_empty non_empty simp_space0 ltac:(intros x x' Hx; symmetry; now apply ne_same)).
  assert (LV : simp eq (verify (pmap (take_line_while1 (pchar x3d)) remaining_len) (fun l => (min_level <=? l) && (l <=? max_level)))
                       (verify (pmap (take_line_while1 (pchar x3d)) remaining_len) (fun l => (min_level <=? l) && (l <=? max_level)))).
  { apply simp_verify; [|congruence]. eapply simp_pmap; [apply simp_tlw1; nn|]. intros x x' Hx. symmetry. now apply simL_len. }
  step LV. subst. eapply rel_bind.
  - refine (simp_pmap Rc Rh _ _ _ _ (simp_header_tail _) _ _ _ H3). intros c c' Hc. unfold Rh, n_header. simpl. now rewrite Hc.
  - intros. step simp_eoi. now apply rel_ok.
Qed.
Lemma simp_divider : simp (RL eq) p_divider p_divider.
Proof.
  apply simp_located. intros s s' Hs. step simp_bol.
  step (simp_verify simL _ _ (fun sp => 4 <=? remaining_len sp) (fun sp => 4 <=? remaining_len sp) (simp_tlw1 x2d ltac:(nn) ltac:(nn))
    ltac:(intros x x' Hx; cbv beta; now rewrite (simL_len _ _ Hx))).
  step simp_eoi. fin. reflexivity.
Qed.
Lemma simp_ph_text : simp eq placeholder_text placeholder_text.
Proof. apply simp_cow. apply simp_verify; [exact simp_to_eol|]. intros x x' Hx. now rewrite (oow_same _ _ Hx). Qed.
Lemma simp_placeholder : simp (RL eq) (p_placeholder dp) (p_placeholder dp).
Proof.
  intros s s' Hs. unfold p_placeholder. step simp_bol. eapply rel_bind with (R := RL eq).
  - refine (simp_located eq _ _ _ _ _ H). apply simp_alt. repeat constructor; intros t t' Ht.
    + unfold placeholder_title. step (simp_tag (bs "%title") ltac:(cl)). step simp_space1. step simp_ph_text. fin. congruence.
    + unfold placeholder_nohtml. step (simp_tag (bs "%nohtml") ltac:(cl)). step simp_space0. fin. reflexivity.
    + unfold placeholder_template. step (simp_tag (bs "%template") ltac:(cl)). step simp_space1. step simp_ph_text. fin. congruence.
    + unfold placeholder_date. step (simp_tag (bs "%date") ltac:(cl)). step simp_space1. eapply rel_bind with (R := eq).
      * refine (simp_map_opt _ eq _ _ _ _ simp_to_eol _ _ _ H3). intros x x' Hx. rewrite (proj1 (simL_rem _ _ Hx)). apply opt_refl.
      * intros. fin. congruence.
    + unfold placeholder_other. step (simp_pnot _ _ _ (simp_tag (bs "%title") ltac:(cl))).
      step (simp_pnot _ _ _ (simp_tag (bs "%nohtml") ltac:(cl))). step (simp_pnot _ _ _ (simp_tag (bs "%template") ltac:(cl))).
      step (simp_pnot _ _ _ (simp_tag (bs "%date") ltac:(cl))). step (simp_tag (bs "%") ltac:(cl)).
      step (simp_cow _ (simp_tlu1_ _ (simp_tlu3 (bs " ") [b_tab] (bs "%") ltac:(cl) ltac:(nn) ltac:(cl) ltac:(nn) ltac:(cl) ltac:(nn)))).
      step simp_space1. step simp_ph_text. fin. congruence.
  - intros. step simp_eoi. now apply rel_ok.
Qed.

(** * Blockquotes *)

Lemma simp_indented : simp (RL eq) indented_blockquote indented_blockquote.
Proof.
  apply simp_located. eapply simp_weaken; [apply simp_many1 with (R := eq)|exact F2_eq]. intros s s' Hs. unfold indented_blockquote_line.
  step (simp_verify simL _ _ (fun sp => 4 <=? remaining_len sp) (fun sp => 4 <=? remaining_len sp) simp_space0 ltac:(intros x x' Hx; cbv beta; now rewrite (simL_len _ _ Hx))).
  step (simp_cow _ (simp_verify simL _ _ (fun sp => negb (is_only_whitespace sp)) (fun sp => negb (is_only_whitespace sp)) simp_not_line_ending
     ltac:(intros x x' Hx; cbv beta; now rewrite (oow_same _ _ Hx)))).
  step simp_eoi. fin. congruence.
Qed.
Lemma simp_arrow_line : simp eq arrow_blockquote_line arrow_blockquote_line.
Proof.
  intros s s' Hs. unfold arrow_blockquote_line. step simp_space0. step (simp_tag (bs "> ") ltac:(cl)).
  step (simp_cow _ simp_not_line_ending). step simp_eoi. fin. congruence.
Qed.
Lemma simp_arrow : simp (RL eq) arrow_blockquote arrow_blockquote.
Proof.
  apply simp_located. eapply simp_pmap.
  - eapply simp_pair; [exact (simp_many1 _ _ _ simp_arrow_line)|]. eapply simp_pmap with (Q := eq).
    + apply simp_many0. eapply simp_pair; [apply simp_many0; exact (simp_value _ _ _ _ simp_blank)|exact simp_arrow_line].
    + intros l l' H. induction H as [|[a b] [a' b'] l l' [H1 H2] H IH]; [reflexivity|]. simpl in *. apply F2_eq in H1. now rewrite IH, H1, H2.
  - intros [a b] [a' b'] [H1 H2]. simpl in *. apply F2_eq in H1. congruence.
Qed.
Lemma simp_blockquote : simp (RL eq) p_blockquote p_blockquote.
Proof. apply simp_palt; [exact simp_indented|exact simp_arrow]. Qed.

(** * Math and code *)

Lemma simp_count_space : simp eq (map_parser space0 count_remaining_bytes) (map_parser space0 count_remaining_bytes).
Proof. apply simp_map_parser; [exact simp_space0|exact simpL_count]. Qed.
Lemma simp_math_end : simp eq end_of_math_block end_of_math_block.
Proof.
  intros s s' Hs. unfold end_of_math_block. step simp_count_space. step (simp_tag (bs "}}$") ltac:(cl)). step simp_space0. step simp_eoi. fin. congruence.
Qed.
Lemma simp_math_block : simp (RL eq) p_math_block p_math_block.
Proof.
  apply simp_located. intros s s' Hs.
  assert (B : simp eq beginning_of_math_block beginning_of_math_block).
  { intros t t' Ht. unfold beginning_of_math_block. step simp_count_space. step (simp_tag (bs "{{$") ltac:(cl)). eapply rel_bind with (R := eq).
    - eapply rel_weaken; [|exact (@opt_eq str)]. refine (simp_opt eq _ _ _ _ _ H1). apply simp_cow.
      eapply simp_delimited; [apply simp_pchar; nn| |apply simp_pchar; nn]. apply simp_tlu1; [cl|nn|vm_compute; lia].
    - intros. step simp_space0. step simp_line_ending. fin. congruence. }
  step B. step (simp_many0 eq _ _ (simp_preceded _ _ _ _ _ _ (simp_pnot _ _ _ simp_math_end) (simp_cow _ simp_any_line))).
  step simp_math_end. apply F2_eq in H2. subst. destruct (dedent _ _); [now apply rel_ok|exact I].
Qed.
Lemma simp_code_end : simp eq code_block_end code_block_end.
Proof.
  intros s s' Hs. unfold code_block_end. step simp_count_space. step (simp_tag (bs "}}}") ltac:(cl)). step simp_space0. step simp_eoi. fin. congruence.
Qed.
Lemma simp_code_start : simp eq code_block_start code_block_start.
Proof.
  intros t t' Ht. unfold code_block_start. step simp_count_space. step (simp_tag (bs "{{{") ltac:(cl)). eapply rel_bind with (R := eq).
  - eapply rel_weaken; [|exact (@opt_eq str)]. refine (simp_opt eq _ _ _ _ _ H1). apply simp_cow.
    apply simp_verify; [apply simp_tlu1; [cl|nn|vm_compute; lia]|]. intros x x' Hx. now rewrite (proj1 (simL_rem _ _ Hx)).
  - intros. step simp_space0. eapply rel_bind with (R := eq).
    + eapply rel_weaken; [|exact (@F2_pair str str)]. refine (simp_sep0 (pair_rel eq eq) simL _ _ _ _ simp_space1 _ _ _ H5).
      eapply simp_separated_pair; [apply simp_cow, simp_tlu1; [cl|nn|vm_compute; lia]|apply (simp_pchar x3d); nn|].
      eapply simp_delimited; [apply simp_pchar; nn| |apply simp_pchar; nn]. apply simp_cow, simp_tlu; [cl|nn|vm_compute; lia].
    + intros. step simp_space0. step simp_eoi. fin. congruence.
Qed.
Lemma simp_code_block : simp (RL eq) p_code_block p_code_block.
Proof.
  apply simp_located. intros s s' Hs. step simp_code_start.
  step (simp_many0 eq _ _ (simp_preceded _ _ _ _ _ _ (simp_pnot _ _ _ simp_code_end) (simp_cow _ simp_any_line))).
  step simp_code_end. apply F2_eq in H2. subst. destruct (dedent _ _); [now apply rel_ok|exact I].
Qed.

(** * Definition lists *)

Lemma simp_term_line : simp (pair_rel (RL Rc) (opt_rel (RL Rc))) (term_line up dp) (term_line up dp).
Proof.
  intros s s' Hs. unfold term_line. step simp_space0. eapply rel_bind with (R := RL Rc).
  - refine (simp_located Rc _ _ _ _ _ H). eapply simp_terminated; [|apply simp_tag; cl].
    apply simp_map_parser; [|apply simp_L, simp_inner]. apply simp_verify; [apply simp_tlu1; [cl|nn|vm_compute; lia]|].
    intros x x' Hx. do 2 f_equal. unfold trim_start. rewrite (proj1 (simL_rem _ _ Hx)). apply simL_rem, lineS; auto.
    destruct (sim_ok _ _ (proj1 Hx)) as [O _]. rewrite remaining_len_eq by auto. apply count_while_le.
  - intros. eapply rel_bind with (R := opt_rel (RL Rc)).
    + refine (simp_opt (RL Rc) _ _ _ _ _ H1). apply simp_located. eapply simp_preceded; [exact simp_space1|].
      apply simp_map_parser; [exact simp_to_eol|apply simp_L, simp_inner].
    + intros. step (simp_pair _ _ _ _ _ _ simp_space0 simp_eoi). fin. split; assumption.
Qed.
Lemma simp_definition_line : simp (RL Rc) (definition_line up dp) (definition_line up dp).
Proof.
  apply simp_located. intros s s' Hs. step simp_space0. step (simp_tag (bs "::") ltac:(cl)). step simp_space1.
  eapply rel_bind with (R := Rc).
  - refine (simp_map_parser Rc _ _ _ _ simp_to_eol _ _ _ H3). apply simp_L, simp_inner.
  - intros. step simp_eoi. now apply rel_ok.
Qed.
Lemma simp_term_defs : simp (pair_rel (RL Rc) (RL (Forall2 (RL Rc)))) (term_and_definitions up dp) (term_and_definitions up dp).
Proof.
  intros s s' Hs. unfold term_and_definitions. step simp_term_line. destruct a as [t d], a' as [t' d'], H0 as [H1 H2]. cbn [fst snd] in *.
  eapply rel_bind with (R := RL (Forall2 (RL Rc))).
  - refine (simp_located (Forall2 (RL Rc)) _ _ _ _ _ H). apply simp_verify; [apply simp_many0, simp_definition_line|].
    intros l l' Hl. destruct d, d'; simpl in H2; try contradiction; destruct Hl; reflexivity.
  - intros v v' b b' Hv (B1 & B2 & B3). fin. destruct d as [d|], d' as [d'|]; simpl in H2; try contradiction.
    + split; [exact H1|]. split; [simpl; constructor; assumption|]. split; assumption.
    + split; [exact H1|]. split; [assumption|]. split; assumption.
Qed.
Definition Rdl (d d' : def_list) : Prop := map (n_loc nowhere NTD) d = map (n_loc nowhere NTD) d'.
Lemma F2_locs {A} (R : A -> A -> Prop) (f : A -> A) l l' : Forall2 (RL R) l l' -> (forall a a', R a a' -> f a = f a') ->
  map (n_loc nowhere f) l = map (n_loc nowhere f) l'.
Proof. intros H W. eapply F2_map; [exact H|]. intros a a' (Ha & _). unfold n_loc. f_equal. now apply W. Qed.
Lemma simp_definition_list : simp (RL Rdl) (p_definition_list up dp) (p_definition_list up dp).
Proof.
  apply simp_located. eapply simp_pmap; [apply simp_many1, simp_deeper, simp_term_defs|].
  intros l l' H. unfold Rdl. rewrite !map_map. eapply F2_map; [exact H|]. intros [t d] [t' d'] [(H1 & _) (H2 & _)]. cbn [fst snd] in *.
  unfold def_item, n_loc. cbn [fst snd l_val l_reg]. f_equal. unfold n_td. cbn [td_term td_defs]. f_equal.
  - unfold n_loc. now rewrite H1.
  - unfold n_loc at 1 3. f_equal. eapply F2_locs; [exact H2|]. auto.
Qed.

(** * Tables *)

Definition Rcell (c c' : cell) : Prop := NCELL c = NCELL c'.
Definition g (kv : cellpos * located cell) := (fst kv, n_loc nowhere NCELL (snd kv)).
Definition Rt (t t' : table) : Prop :=
  map g (t_cells t) = map g (t_cells t') /\ t_row_cnt t = t_row_cnt t' /\ t_col_cnt t = t_col_cnt t' /\ t_centered t = t_centered t'.
Lemma g_insert kk v m : map g (cells_insert kk v m) = cells_insert kk (n_loc nowhere NCELL v) (map g m).
Proof.
  induction m as [|[k' v'] m IH]; [reflexivity|]. cbn [cells_insert map]. unfold g at 2. cbn [fst snd].
  destruct (cellpos_eqb kk k'); [reflexivity|]. cbn [map]. now rewrite IH.
Qed.
Lemma g_collect l : map g (cells_collect l) = cells_collect (map g l).
Proof.
  unfold cells_collect. change (@nil (cellpos * located cell)) with (map g []) at 2. generalize (@nil (cellpos * located cell)).
  induction l as [|[a b] l IH]; intro m; [reflexivity|]. cbn [fold_left map]. rewrite IH, g_insert. reflexivity.
Qed.
Lemma g_fold (f : cellpos -> nat) m a :
  fold_left (fun x kv => Nat.max x (f (fst kv) + 1)) (map g m) a = fold_left (fun x (kv : cellpos * located cell) => Nat.max x (f (fst kv) + 1)) m a.
Proof. revert a. induction m as [|[kk v] m IH]; intro a; [reflexivity|]. cbn [fold_left map g fst]. apply IH. Qed.
Lemma table_new_rel l l' c : map g l = map g l' -> Rt (table_new l c) (table_new l' c).
Proof.
  intro H. assert (C : map g (cells_collect l) = map g (cells_collect l')) by (now rewrite !g_collect, H).
  unfold table_new. cbv zeta. split; [exact C|]. cbn [t_row_cnt t_col_cnt t_centered].
  split; [|split; [|reflexivity]].
  - rewrite <- (g_fold cp_row (cells_collect l)), <- (g_fold cp_row (cells_collect l')). now rewrite C.
  - rewrite <- (g_fold cp_col (cells_collect l)), <- (g_fold cp_col (cells_collect l')). now rewrite C.
Qed.
Lemma g_row r cs cs' : Forall2 (RL Rcell) cs cs' -> map g (enum_row r cs) = map g (enum_row r cs').
Proof.
  intro H. unfold enum_row. generalize 0. induction H as [|x x' cs cs' (Hx & _) H IH]; intro n; [reflexivity|]. cbn [length seq combine map].
  f_equal; [|apply IH]. unfold g, n_loc. cbn [fst snd]. now rewrite Hx.
Qed.
Lemma g_rows rs rs' : Forall2 (Forall2 (RL Rcell)) rs rs' -> map g (enum_rows rs) = map g (enum_rows rs').
Proof.
  intro H. unfold enum_rows. generalize 0. induction H as [|x x' rs rs' Hx H IH]; intro n; [reflexivity|]. cbn [length seq combine flat_map].
  rewrite !map_app. f_equal; [|apply IH]. cbn [fst snd]. now apply g_row.
Qed.
Lemma g_get kk m : cells_get kk (map g m) = option_map (n_loc nowhere NCELL) (cells_get kk m).
Proof. induction m as [|[k' v] m IH]; [reflexivity|]. cbn [cells_get map g fst snd]. destruct (cellpos_eqb kk k'); [reflexivity|apply IH]. Qed.
Lemma g_divider t t' r : Rt t t' -> is_divider_row t' r = is_divider_row t r.
Proof.
  intros (H & _). assert (Q : forall x, is_divider_row x r = match cells_get (CellPos r 0) (map g (t_cells x)) with Some c => is_align (l_val c) | None => false end).
  { intro x. unfold is_divider_row, get_cell. rewrite g_get. destruct (cells_get (CellPos r 0) (t_cells x)) as [c|]; [|reflexivity].
    simpl. destruct (l_val c); reflexivity. }
  now rewrite !Q, H.
Qed.
Lemma simp_align : simp eq column_align column_align.
Proof.
  intros s s' Hs. unfold column_align. step (simp_opt eq _ _ (simp_pchar x3a ltac:(nn) ltac:(nn))). step (simp_tlw1 x2d ltac:(nn) ltac:(nn)).
  step (simp_opt eq _ _ (simp_pchar x3a ltac:(nn) ltac:(nn))). fin. apply opt_eq in H0, H4. now subst.
Qed.
Lemma simp_cell : simp (RL Rcell) (p_cell up dp) (p_cell up dp).
Proof.
  apply simp_located, simp_alt. repeat constructor.
  - eapply simp_pmap; [eapply simp_value, simp_delimited; [exact simp_space0|apply simp_tag; cl|exact simp_space0]|]. intros; subst; reflexivity.
  - eapply simp_pmap; [eapply simp_value, simp_delimited; [exact simp_space0|apply simp_tag; cl|exact simp_space0]|]. intros; subst; reflexivity.
  - eapply simp_pmap; [exact simp_align|]. intros; subst; reflexivity.
  - eapply simp_pmap; [apply simp_map_parser; [apply simp_tlu1; [cl|nn|vm_compute; lia]|apply simp_L, (simp_inner up dp)]|].
    intros a a' H. unfold Rcell. simpl. now rewrite H.
Qed.
Lemma simp_row : simp (Forall2 (RL Rcell)) (p_row up dp) (p_row up dp).
Proof.
  eapply simp_terminated; [|exact simp_eoi]. eapply simp_delimited; [apply simp_pchar; nn| |apply simp_pchar; nn].
  eapply simp_sep1; [apply simp_pchar; nn|apply simp_deeper, simp_cell].
Qed.
Lemma simp_table : simp (RL Rt) (p_table up dp) (p_table up dp).
Proof.
  apply simp_located, simp_verify.
  - intros s s' Hs. step (simp_pair _ _ _ _ _ _ simp_space0 simp_row). step (simp_many0 _ _ _ (simp_preceded _ _ _ _ _ _ simp_space0 simp_row)).
    fin. destruct a as [x y], a' as [x' y'], H0 as [Hx Hy]. cbn [fst snd] in *. rewrite (ne_same _ _ Hx). apply table_new_rel, g_rows. now constructor.
  - intros t t' H. f_equal. assert (rows t' = rows t) as -> by (unfold rows; destruct H as (_ & -> & _); reflexivity).
    induction (rows t) as [|r l IH]; [reflexivity|]. cbn [forallb]. rewrite IH. f_equal. now apply g_divider.
Qed.
Lemma simp_nested_table : simp (RL Rt) (p_nested_table up dp) (p_nested_table up dp).
Proof. eapply simp_lmap; [exact simp_table|]. intros t t' (H1 & H2 & H3 & H4). repeat split; auto. Qed.
Lemma Rt_table t t' : Rt t t' -> n_table (fun u => u) nowhere t = n_table (fun u => u) nowhere t'.
Proof. intros (H1 & H2 & H3 & H4). unfold n_table. unfold g in H1. now rewrite H1, H2, H3, H4. Qed.

(** * Lists *)

Definition Rb (b b' : block) : Prop := NB b = NB b'.
Definition Rli (i i' : list_item) : Prop := NITEM i = NITEM i'.
Lemma simp_indent b : simp eq (indentation_level b) (indentation_level b).
Proof.
  destruct b; eapply simp_pmap; [exact simp_space0| |apply simp_peek; exact simp_space0|]; intros x x' Hx; symmetry; now apply simL_len.
Qed.
Lemma simp_indent_v f : simp eq (verify (indentation_level false) f) (verify (indentation_level false) f).
Proof. apply simp_verify; [apply simp_indent|congruence]. Qed.
Lemma simp_todo : simp eq p_todo_status p_todo_status.
Proof.
  intros s s' Hs. unfold p_todo_status. step (simp_tag (bs "[") ltac:(cl)). eapply rel_bind with (R := eq).
  - refine (simp_alt eq _ _ _ _ _ H). repeat constructor; eapply simp_value, simp_tag; cl.
  - intros. step (simp_tag (bs "] ") ltac:(cl)). fin. congruence.
Qed.
Lemma simp_prefix : simp eq list_item_prefix list_item_prefix.
Proof.
  apply simp_palt.
  - eapply simp_pmap; [apply simp_palt; eapply simp_value, simp_tag; cl|]. congruence.
  - eapply simp_pmap with (R := pair_rel eq eq).
    + apply simp_palt; apply simp_pair.
      * apply simp_alt. repeat constructor; eapply simp_value; try (apply simp_take_while1; reflexivity); apply simp_many1, simp_one_of; cl.
      * apply simp_palt; eapply simp_value, simp_tag; cl.
      * eapply simp_value, simp_tag; cl.
      * eapply simp_value, simp_tag; cl.
    + intros [x y] [x' y'] [H1 H2]. simpl in *. congruence.
Qed.
Lemma simp_item_tail n n' i : simp (RL Rb) n n' ->
  simp (pair_rel eq (Forall2 (RL Rb))) (list_item_tail_ n i) (list_item_tail_ n' i).
Proof.
  intros N s s' Hs. unfold list_item_tail_. step (simp_opt eq _ _ simp_todo). step (simp_deeper _ _ _ N).
  step (simp_many0 _ _ _ (simp_preceded _ _ _ _ _ _ (simp_indent_v (fun l => i <? l)) (simp_deeper _ _ _ N))).
  fin. apply opt_eq in H0. split; [assumption|]. simpl. now constructor.
Qed.
Lemma simp_item_ n n' : simp (RL Rb) n n' -> simp (pair_rel eq (RL Rli)) (list_item_ n) (list_item_ n').
Proof.
  intros N s s' Hs. unfold list_item_. step simp_bol. step (simp_indent true). subst a'0.
  step (simp_recognize _ _ _ (simp_pair _ _ _ _ _ _ simp_rest_of_line (simp_many0 _ _ _ (simp_preceded _ _ _ _ _ _ (simp_indent_v (fun l => a0 <? l)) simp_rest_of_line)))).
  eapply rel_bind with (R := RL Rli).
  - refine (simp_located Rli _ _ _ _ _ H3). eapply simp_pmap.
    + eapply simp_pair; [exact simp_prefix|apply simp_item_tail; exact N].
    + intros [x [y z]] [x' [y' z']] [H5 [H6 H7]]. cbn [fst snd] in *. subst. unfold Rli. cbn [n_item]. f_equal. eapply F2_locs; [exact H7|]. auto.
  - intros v v' x x' Hv Hx. pose proof Hv as (F1 & F2 & G1 & G2 & S1 & S2 & D2). pose proof H1 as (E1 & E2 & L1 & L2 & P1 & P2 & D).
    rewrite S1, P1, pos_ltb by lia. destruct (sp_start v <? sp_start s1) eqn:C; [exact I|]. apply Nat.ltb_ge in C.
    apply rel_ok; [|split; auto].
    assert (pos (sp_start s1) <= pos (sp_start v)) by (apply pos_le; lia).
    unfold advance_start_by.
    replace (sp_start s1 + (sp_start v - sp_start s1)) with (sp_start v) by lia.
    rewrite P1. replace (pos (sp_start s1) + (pos (sp_start v) - pos (sp_start s1))) with (pos (sp_start v)) by lia.
    rewrite P2, pos_ltb by lia. destruct (sp_end s1 <? sp_start v) eqn:C2; repeat split; simpl; auto; try lia.
    apply Nat.ltb_ge in C2. exact C2.
Qed.
Definition Rlist (l l' : list (located list_item)) : Prop := map (n_loc nowhere NITEM) l = map (n_loc nowhere NITEM) l'.
Lemma with_pos_rel p i i' : Rli i i' -> Rli (li_with_pos p i) (li_with_pos p i').
Proof. destruct i, i'. unfold Rli. cbn [n_item li_with_pos li_with_ty li_ty]. intro H. injection H. intros. congruence. Qed.
Lemma with_ty_rel p i i' : Rli i i' -> Rli (li_with_ty p i) (li_with_ty p i').
Proof. destruct i, i'. unfold Rli. cbn [n_item li_with_pos li_with_ty li_ty]. intro H. injection H. intros. congruence. Qed.
Lemma ty_rel i i' : Rli i i' -> li_ty i = li_ty i'.
Proof. destruct i, i'. unfold Rli. cbn [n_item li_with_pos li_with_ty li_ty]. intro H. injection H. auto. Qed.
Lemma assign_rel l l' : Forall2 (RL Rli) l l' -> forall n, Forall2 (RL Rli) (assign_pos n l) (assign_pos n l').
Proof.
  induction 1 as [|x x' l l' Hx H IH]; intro n; [constructor|]. cbn [assign_pos]. constructor; [|apply IH].
  eapply RL_lmap; [exact Hx|]. intros. now apply with_pos_rel.
Qed.
Lemma normalize_rel l l' : Forall2 (RL Rli) l l' -> Rlist (normalize_list l) (normalize_list l').
Proof.
  intro H. apply (F2_locs Rli); [|auto]. destruct H as [|x x' l l' Hx H]; [constructor|]. cbn [normalize_list]. constructor; [exact Hx|].
  rewrite (ty_rel _ _ (proj1 Hx)). induction H as [|y y' l l' Hy H IH]; [constructor|]. cbn [map]. constructor; [|exact IH].
  eapply RL_lmap; [exact Hy|]. intros. now apply with_ty_rel.
Qed.
Lemma simp_list_ n n' : simp (RL Rb) n n' -> simp (RL Rlist) (list_ n) (list_ n').
Proof.
  intro N. apply simp_located. intros s s' Hs. step (simp_deeper _ _ _ (simp_item_ _ _ N)). destruct a as [i x], a' as [i' x'], H0 as [H1 H2]. cbn [fst snd] in *. subst i'.
  eapply rel_bind with (R := Forall2 (RL Rli)).
  - refine (simp_many0 _ _ _ _ _ _ H). eapply simp_preceded; [apply simp_indent_v|].
    eapply simp_pmap; [apply simp_deeper, simp_item_; exact N|]. now intros ? ? [].
  - intros. fin. apply normalize_rel. constructor; [assumption|]. now apply assign_rel.
Qed.

(** * Paragraphs and pages *)

Definition Rp (l l' : list container) : Prop := map NC l = map NC l'.
Lemma simp_continue n n' : simp (RL Rb) n n' -> simp any (continue_paragraph_ up dp n) (continue_paragraph_ up dp n').
Proof.
  intros N s s' Hs. unfold continue_paragraph_. step (simp_pnot _ _ _ simp_header). step (simp_pnot _ _ _ simp_definition_list).
  step (simp_pnot _ _ _ (simp_list_ _ _ N)). step (simp_pnot _ _ _ simp_table). step (simp_pnot _ _ _ simp_code_block).
  step (simp_pnot _ _ _ simp_math_block). step (simp_pnot _ _ _ simp_blank). step (simp_pnot _ _ _ simp_arrow).
  step (simp_pnot _ _ _ simp_divider). step (simp_pnot _ _ _ simp_placeholder). fin. exact I.
Qed.
Lemma simp_paragraph_ n n' : simp (RL Rb) n n' -> simp (RL Rp) (paragraph_ up dp n) (paragraph_ up dp n').
Proof.
  intro N. apply simp_located. eapply simp_weaken with (R := Forall2 Rc).
  - apply simp_many1. eapply simp_delimited; [apply simp_continue; exact N| |exact simp_eoi].
    intros s s' Hs. unfold paragraph_line. step simp_space0. now apply simp_inner.
  - intros l l' H. eapply F2_map; [exact H|]. auto.
Qed.
Ltac blk L := eapply simp_lmap; [exact L|]; intros ? ? HH; try (subst; reflexivity); unfold Rb; cbn [n_block]; f_equal; try exact HH.
Lemma simp_nested f : forall f', simp (RL Rb) (nested_block_element up dp f) (nested_block_element up dp f').
Proof.
  induction f as [|f IH]; intros f' s s' Hs; [exact I|]. destruct f' as [|f'].
  { cbn [nested_block_element]. destruct (alt _ s); exact I. }
  cbn [nested_block_element]. refine (simp_alt (RL Rb) _ _ _ _ _ Hs). repeat constructor.
  - blk simp_definition_list.
  - blk (simp_list_ _ _ (IH f')).
  - blk simp_nested_table. now apply Rt_table.
  - blk simp_code_block.
  - blk simp_math_block.
  - blk simp_arrow.
  - blk (simp_paragraph_ _ _ (IH f')).
Qed.
Lemma simp_p_list : simp (RL Rlist) (p_list up dp) (p_list up dp).
Proof. intros s s' Hs. refine (simp_list_ _ _ _ _ _ Hs). apply simp_nested. Qed.
Lemma simp_p_paragraph : simp (RL Rp) (p_paragraph up dp) (p_paragraph up dp).
Proof. intros s s' Hs. refine (simp_paragraph_ _ _ _ _ _ Hs). apply simp_nested. Qed.
Lemma simp_top : simp (RL Rb) (top_level_block_element up dp) (top_level_block_element up dp).
Proof.
  apply simp_alt. repeat constructor.
  - blk simp_header.
  - blk simp_definition_list.
  - blk simp_p_list.
  - blk simp_table. now apply Rt_table.
  - blk simp_code_block.
  - blk simp_math_block.
  - blk simp_blockquote.
  - blk simp_divider.
  - blk simp_placeholder.
  - blk simp_p_paragraph.
Qed.
Lemma flat_rel l l' : Forall2 (opt_rel (RL Rb)) l l' -> Forall2 (RL Rb) (flatten_opt l) (flatten_opt l').
Proof.
  induction 1 as [|x x' l l' Hx H IH]; [constructor|]. unfold flatten_opt in *. cbn [flat_map].
  destruct x, x'; simpl in Hx; try contradiction; [|exact IH]. constructor; assumption.
Qed.
Lemma simp_page : simp (Forall2 (RL Rb)) (p_page up dp) (p_page up dp).
Proof.
  eapply simp_pmap; [apply simp_all_consuming, simp_many0 with (R := opt_rel (RL Rb))|exact flat_rel].
  assert (V : simp (opt_rel (RL Rb)) (value None blank_line) (value None blank_line)).
  { eapply simp_pmap; [exact simp_blank|]. intros. exact I. }
  apply simp_palt; [exact V|]. eapply simp_pmap; [exact simp_top|]. intros x x' Hx. exact Hx.
Qed.
Lemma page_twin : rel (Forall2 (RL Rb)) (parse_page up dp (u toks)) (parse_page up dp (w toks)).
Proof.
  apply simp_page. unfold span_of, sim. simpl. rewrite u_length. repeat split; auto; try lia. unfold pos. now rewrite firstn_all.
Qed.
Lemma pos_newlines n : newlines (firstn (pos n) (w toks)) = newlines (firstn n (u toks)).
Proof.
  unfold pos. assert (X : firstn (length (w (firstn n toks))) (w toks) = w (firstn n toks)).
  { rewrite <- (firstn_skipn n toks) at 2. now rewrite w_app, firstn_app, Nat.sub_diag, firstn_O, app_nil_r, firstn_all. }
  rewrite X. assert (Y : firstn n (u toks) = u (firstn n toks)) by apply firstn_map. rewrite Y. clear X Y.
  induction (firstn n toks) as [|[b f] l IH]; [reflexivity|]. unfold w in *. cbn [flat_map u map newlines fst]. unfold u in IH. rewrite <- IH. unfold one at 1.
  cbn [fst snd]. destruct (f && is_nl b) eqn:C; [|reflexivity]. apply andb_true_iff in C as [_ C]. rewrite C. reflexivity.
Qed.
End Twin.

(** * Texts with the same lines *)

Lemma toks_of (s : str) : ~ In b_cr (unix s) -> exists k, u k = unix s /\ w k = s.
Proof.
  induction s as [|b s IH]; [exists []; split; reflexivity|]. cbn [unix]. destruct (beqb b b_cr && starts_with [b_nl] s) eqn:C.
  - intro N. apply andb_true_iff in C as [C1 C2]. apply beqb_eq in C1. subst. destruct s as [|c s]; [discriminate|].
    cbn [starts_with] in C2. rewrite andb_true_r in C2. apply beqb_eq in C2. subst c.
    destruct (IH N) as (kk & H1 & H2). assert (X : unix (b_nl :: s) = b_nl :: unix s) by reflexivity. rewrite X in *.
    destruct kk as [|[b f] kk]; [discriminate|]. cbn [u map fst] in H1. injection H1 as -> H1.
    exists ((b_nl, true) :: kk). split; [cbn [u map fst]; now f_equal|].
    unfold w in *. cbn [flat_map one fst snd] in *. destruct f; cbn in H2 |- *; [discriminate|]. now rewrite <- H2.
  - intro N. destruct IH as (kk & H1 & H2); [intro X; apply N; now right|]. exists ((b, false) :: kk). split.
    + cbn [u map fst]. now f_equal.
    + unfold w in *. cbn [flat_map one fst snd]. now rewrite H2.
Qed.
Lemma F2_map' {A B} (R : A -> A -> Prop) (f f' : A -> B) l l' : Forall2 R l l' -> (forall a a', R a a' -> f a = f' a') -> map f l = map f' l'.
Proof. intros H W. induction H; simpl; [reflexivity|]. f_equal; auto. Qed.
Definition alike s t (r r' : res page) : Prop :=
  match r, r' with
  | Ok _ p, Ok _ q => same_reading s t p q
  | Panic, Panic => True
  | _, _ => False
  end.
Lemma unix_alike up dp s : ~ In b_cr (unix s) -> alike (unix s) s (parse_page up dp (unix s)) (parse_page up dp s).
Proof.
  intro N. destruct (toks_of s N) as (kk & H1 & H2). assert (NC : nocr kk) by (unfold nocr; now rewrite H1).
  pose (E := {| toks := kk; toks_nocr := NC |}). pose proof (@page_twin E up dp) as R. pose proof (@pos_newlines E) as P.
  change (@toks E) with kk in R, P. rewrite H1, H2 in R, P.
  pose proof (claim_terminates up dp (unix s)) as T1. pose proof (claim_terminates up dp s) as T2.
  destruct (parse_page up dp (unix s)) as [r p| | |] eqn:P1, (parse_page up dp s) as [r' q| | |] eqn:P2; simpl in R |- *; try tauto;
    try (now apply (claim_not_err up dp (unix s))).
  destruct R as [_ R]. split.
  - unfold full_content_of, n_page. eapply F2_map; [exact R|]. intros a a' (A & _). unfold n_loc. now f_equal.
  - eapply F2_map'; [exact R|]. intros a a' (_ & _ & A). unfold lines_before. now rewrite A, P.
Qed.
Lemma lines_alike up dp s t : same_lines s t -> alike s t (parse_page up dp s) (parse_page up dp t).
Proof.
  intros [Q N]. pose proof (unix_alike up dp s N) as A. rewrite Q in N. pose proof (unix_alike up dp t N) as B. rewrite Q in A.
  destruct (parse_page up dp (unix t)), (parse_page up dp s), (parse_page up dp t); simpl in *; try tauto.
  destruct A as [A1 A2], B as [B1 B2]. split; congruence.
Qed.
Lemma unix_plain t : ~ In b_cr t -> unix t = t.
Proof.
  induction t as [|b t IH]; intro N; [reflexivity|]. cbn [unix]. destruct (beqb b b_cr) eqn:C.
  - apply beqb_eq in C. subst. destruct N. now left.
  - cbn [andb]. f_equal. apply IH. intro X. apply N. now right.
Qed.
Lemma unix_windows t : ~ In b_cr t -> unix (windows t) = t.
Proof.
  induction t as [|b t IH]; intro N; [reflexivity|]. assert (N' : ~ In b_cr t) by (intro X; apply N; now right).
  unfold windows in *. cbn [flat_map]. destruct (is_nl b) eqn:C.
  - apply beqb_eq in C. subst. cbn. f_equal. now apply IH.
  - cbn [app unix]. destruct (beqb b b_cr) eqn:D; [apply beqb_eq in D; subst; destruct N; now left|]. cbn [andb]. f_equal. now apply IH.
Qed.
Lemma windows_same t : ~ In b_cr t -> same_lines t (windows t).
Proof. intro N. unfold same_lines. now rewrite unix_windows, unix_plain. Qed.
