(** When a block parser does not accept a text, from what it would have to
    contain. *)
From Verif Require Import Base ModelSpan ModelComb ModelAst ModelTable ModelLink ModelInline ModelBlock
  SpecDoc SpecBlock SpecTree SpecSpan SpecRound ProofBase ProofBytes ProofContract ProofPrim ProofInline ProofLink ProofText
  ProofBlock ProofFence ProofDefs ProofTable ProofList ProofPage ProofClaims2 ProofSpan ProofRound.
Local Open Scope nat_scope.

(** The span ends where a line ends. *)
Definition ctx (s : span) : Prop :=
  span_ok s /\ (sp_end s = length (sp_inner s) \/ bol (sp_inner s) (sp_end s)).

Section Refuse.
Variable up : str -> option uri.
Variable dp : str -> option date.
Local Notation ev s := (any_env up dp (sp_inner s)).
Local Notation bok s := (block_ok up dp (sp_inner s) (fun _ => True)).

Lemma ctx_sok s : ctx s -> @sok (ev s) s.
Proof. intros [[H1 H2] _]. repeat split; auto. Qed.
Lemma ctx_edge s : lstart s -> @edge (ev s) s.
Proof.
  intros [H|H]; right; [left; exact H|]. right. left. exists b_nl. auto.
Qed.

(** A parser that would have to find a block here, and cannot. *)
Lemma refuse {A} (p : parser (located A)) (f : A -> block) (P : span -> Prop) s :
  ctx s -> P s -> @GP (ev s) _ (S (remaining_len s)) P p (@BQ (ev s) _ true f) ->
  (forall hi x, sp_start s < hi -> hi <= sp_end s -> bok s true (sp_depth s) (sp_start s) hi (f x) ->
     remaining s = slice (sp_start s) hi (sp_inner s) ++ slice hi (sp_end s) (sp_inner s) -> False) ->
  fails (p s).
Proof.
  intros Hc Hp G N. specialize (G s (ctx_sok s Hc) ltac:(lia) Hp). unfold R in G.
  destruct (p s) as [s' x| | |]; cbn; auto. destruct G as [(A1 & A2 & A3 & A4 & A5 & _) (B1 & B2 & B3 & B4)].
  apply (N (sp_start s') (l_val x) B2 A5); [apply B3; apply Hc|].
  unfold remaining. apply slice_app; lia.
Qed.
Lemma GP_any {A} {EV : env} n (p : parser A) Q : G n p Q -> GP n (fun _ => True) p Q.
Proof. apply GP_of_G. Qed.

(** The head of the text. *)
Definition heads (s : span) (c : byte) : Prop := exists r, remaining s = c :: r.
Lemma blanks_head a c r l : blanks a -> is_space c = false -> a ++ r = c :: l -> a = [] /\ r = c :: l.
Proof.
  intros B N E. destruct a as [|x a]; auto. exfalso. cbn in E. injection E as -> _. inversion B; congruence.
Qed.

Lemma empty_slice (inner : str) lo hi e : lo < hi -> slice lo e inner = [] -> hi <= e -> e <= length inner -> False.
Proof. intros L E H K. apply (f_equal (@length _)) in E. rewrite slice_length in E by auto. cbn in E. lia. Qed.

Lemma refuse_empty {A} (p : parser (located A)) (f : A -> block) (P : span -> Prop) s :
  ctx s -> P s -> @GP (ev s) _ (S (remaining_len s)) P p (@BQ (ev s) _ true f) ->
  remaining s = [] -> fails (p s).
Proof.
  intros Hc Hp G E. eapply refuse; eauto. intros hi x L1 L2 _ _.
  eapply empty_slice; eauto. apply Hc.
Qed.

(** Blanks followed by one of [cs] are needed. *)
Lemma no_header s : ctx s -> ~ (exists a r, remaining s = a ++ x3d :: r /\ blanks a) -> fails (p_header up dp s).
Proof.
  intros Hc N. apply (refuse (p_header up dp) BHeader (fun _ => True) s Hc I); [apply GP_any; exact (@G_header (ev s) _)|].
  intros hi h L1 L2 (_ & Hl & sp & w1 & c & w2 & f & e & E & B1 & _) Er. apply N. rewrite Er, E.
  destruct (h_level h) as [|n]; [lia|]. cbn [repeat]. exists sp. eexists. split; auto.
  rewrite <- !app_assoc. cbn [app]. reflexivity.
Qed.
Lemma chain_reach {A} gap (P : nat -> nat -> A -> Prop) (fin : nat -> nat -> Prop) d l lo hi :
  (forall a b, fin a b -> a <= b) -> chain (fun _ => True) gap fin P d lo l hi -> lo <= hi.
Proof.
  intro F. revert lo. induction l as [|x l IH]; intros lo H; [now apply F|].
  cbn in H. destruct H as (H1 & _ & _ & H2 & _ & _ & H3). apply IH in H3. lia.
Qed.
Lemma rows_reach s d rs lo hi : rows_ok up dp (sp_inner s) (fun _ => True) d lo rs hi -> lo <= hi.
Proof.
  revert lo. induction rs as [|r rs IH]; intros lo H; cbn in H; [lia|].
  destruct H as (mid & Hm & _ & H). apply IH in H. lia.
Qed.
Lemma at_nth s k c : span_ok s -> sp_start s + k < sp_end s -> nth_error (sp_inner s) (sp_start s + k) = Some c ->
  exists a r, remaining s = a ++ c :: r /\ length a = k /\ a = slice (sp_start s) (sp_start s + k) (sp_inner s).
Proof.
  intros [H1 H2] L E. exists (slice (sp_start s) (sp_start s + k) (sp_inner s)), (slice (sp_start s + k + 1) (sp_end s) (sp_inner s)).
  split; [|split; [rewrite slice_length; lia|reflexivity]].
  unfold remaining. rewrite (slice_app (sp_start s) (sp_start s + k)) by lia. f_equal.
  rewrite (slice_app (sp_start s + k) (sp_start s + k + 1)) by lia. cbn [app].
  assert (slice (sp_start s + k) (sp_start s + k + 1) (sp_inner s) = [c]) as ->; [|reflexivity].
  unfold slice. replace (sp_start s + k + 1 - (sp_start s + k)) with 1 by lia.
  apply nth_error_split in E as (x & y & -> & <-). rewrite skipn_app, skipn_all, Nat.sub_diag. reflexivity.
Qed.
Lemma no_table s : ctx s -> ~ (exists a r, remaining s = a ++ x7c :: r /\ blanks a) -> fails (p_table up dp s).
Proof.
  intros Hc N. apply (refuse (p_table up dp) BTable (fun _ => True) s Hc I); [apply GP_any; exact (@G_table (ev s) _)|].
  intros hi h L1 L2 (first & rs & (mid & Hm & (B & E & Hne & C) & Hr) & _) Er. apply N.
  destruct first as [a cells]. cbn [fst snd] in *. destruct cells as [|c cells]; [congruence|].
  assert (K : sp_start s + length a < mid /\ nth_error (sp_inner s) (sp_start s + length a) = Some x7c).
  { cbn in C. destruct C as (C1 & C2 & _ & C3 & _ & _ & C4). apply slice_cons in C2 as (C2 & C5 & _).
    apply chain_reach in C4; [|now intros x y [Hxy _]]. split; [lia|exact C2]. }
  apply rows_reach in Hr. destruct K as [K1 K2].
  destruct (at_nth s (length a) x7c) as (a' & r & E1 & E2 & E3); auto; [apply Hc|lia|].
  exists a', r. split; auto. rewrite E3, E. exact B.
Qed.
Lemma no_code s : ctx s -> ~ (exists a r, remaining s = a ++ bs "{{{" ++ r /\ blanks a) -> fails (p_code_block s).
Proof.
  intros Hc N. apply (refuse p_code_block BCode (fun _ => True) s Hc I); [apply GP_any; exact (@G_code_block (ev s) _ true)|].
  intros hi h L1 L2 (a & lang & b & meta & f & pairs & e & body & raw & cl & d & E & B & _) Er. apply N. rewrite Er, E.
  exists a. eexists. split; auto. rewrite <- !app_assoc. reflexivity.
Qed.
Lemma no_math s : ctx s -> ~ (exists a r, remaining s = a ++ bs "{{$" ++ r /\ blanks a) -> fails (p_math_block s).
Proof.
  intros Hc N. apply (refuse p_math_block BMath (fun _ => True) s Hc I); [apply GP_any; exact (@G_math_block (ev s) _ true)|].
  intros hi h L1 L2 (a & b & c & d & fence & body & raw & e & E & B & _) Er. apply N. rewrite Er, E.
  exists a. eexists. split; auto. rewrite <- !app_assoc. reflexivity.
Qed.
Lemma no_divider s : ctx s -> ~ (exists r, remaining s = bs "----" ++ r) -> fails (p_divider s).
Proof.
  intros Hc N. apply (refuse p_divider (fun _ => BDivider) (fun _ => True) s Hc I); [apply GP_any; exact (@G_divider (ev s) _)|].
  intros hi h L1 L2 (_ & n & e & Hn & E & _) Er. apply N. rewrite Er, E.
  do 4 (destruct n as [|n]; [lia|]). cbn [repeat app bs list_byte_of_string]. eexists. reflexivity.
Qed.
Lemma blanks_split l : exists a r, l = a ++ r /\ blanks a /\ nonblank_head r.
Proof.
  induction l as [|c l (a & r & E & B & N)]; [exists [], []; split; [reflexivity|split; [constructor|congruence]]|].
  destruct (is_space c) eqn:Ec.
  - exists (c :: a), r. subst l. split; [reflexivity|split; auto]. constructor; auto.
  - exists [], (c :: l). split; [reflexivity|split; [constructor|congruence]].
Qed.
Lemma no_arrow_line s : span_ok s -> (forall a r, blanks a -> remaining s <> a ++ bs "> " ++ r) ->
  fails (arrow_blockquote_line s).
Proof.
  intros Hs N. destruct (blanks_split (remaining s)) as (a & r & E & B & H). unfold arrow_blockquote_line.
  assert (S1 : sees s (a ++ r)) by (split; auto).
  rewrite (space0_run s a r S1 B H). cbn [bind]. rewrite tag_none; [exact I|].
  intros r' E'. apply sees_mv in S1. destruct S1 as [_ S1]. rewrite S1 in E'. rewrite E' in E. exact (N a r' B E).
Qed.
Lemma no_arrow s : ctx s -> (forall a r, blanks a -> remaining s <> a ++ bs "> " ++ r) -> fails (arrow_blockquote s).
Proof.
  intros [Hs _] N. unfold arrow_blockquote. apply fails_located, fails_pmap. unfold pair. apply fails_bind, fails_many1.
  now apply no_arrow_line.
Qed.
Lemma no_indented s : ctx s -> (forall a r, blanks a -> 4 <= length a -> remaining s <> a ++ r) ->
  fails (indented_blockquote s).
Proof.
  intros [Hs _] N. destruct (blanks_split (remaining s)) as (a & r & E & B & H).
  unfold indented_blockquote. apply fails_located, fails_many1. unfold indented_blockquote_line, verify.
  apply fails_bind. assert (S1 : sees s (a ++ r)) by (split; auto).
  rewrite (space0_run s a r S1 B H). cbn [bind]. rewrite (sees_len _ _ (sees_tk _ _ _ S1)).
  destruct (4 <=? length a) eqn:L; [|exact I]. apply Nat.leb_le in L. exfalso. exact (N a r B L E).
Qed.
Lemma no_blockquote s : ctx s -> (forall a r, blanks a -> remaining s <> a ++ bs "> " ++ r) ->
  (forall a r, blanks a -> 4 <= length a -> remaining s <> a ++ r) -> fails (p_blockquote s).
Proof. intros. apply fails_palt; auto using no_arrow, no_indented. Qed.
Lemma no_list_f n s : ctx s -> remaining_len s < n ->
  (forall a t u pre r, blanks a -> prefix_ok t u pre -> remaining s <> a ++ pre ++ r) ->
  fails (list_ (nested_block_element up dp n) s).
Proof.
  intros Hc Hn N. apply (refuse (list_ (nested_block_element up dp n)) BList (fun _ => True) s Hc I).
  { intros s' Hs' Hn' _. apply (@G_list (ev s) n _ (@GP_nested (ev s) n) true s' Hs'). lia. }
  intros hi l L1 L2 (_ & _ & (f & os & -> & _ & pre & Hp & Es) & k & C) Er. cbn in C.
  destruct C as (C1 & (_ & C2 & C3) & _). rewrite C2 in *. apply starts_with_spec in Es as [r Es].
  rewrite (slice_app (sp_start s) (sp_start s + k) hi) in Er.
  - rewrite Es in Er. eapply (N _ _ _ _ _ C3 Hp). rewrite Er, <- !app_assoc. reflexivity.
  - lia.
  - destruct (Nat.le_gt_cases (sp_start s + k) hi) as [|F]; auto. exfalso.
    unfold slice in Es. replace (hi - (sp_start s + k)) with 0 in Es by lia. cbn in Es.
    destruct pre; [|discriminate]. destruct (li_ty (l_val f)) as [o|[| |]]; cbn in Hp.
    + destruct Hp as (lb & E & [Hl _] & _). destruct lb; [congruence|discriminate].
    + destruct Hp; discriminate.
    + destruct Hp; discriminate.
    + contradiction.
Qed.
Lemma no_list s : ctx s -> (forall a t u pre r, blanks a -> prefix_ok t u pre -> remaining s <> a ++ pre ++ r) ->
  fails (p_list up dp s).
Proof. intros Hc N. unfold p_list. apply no_list_f; auto. Qed.
Lemma no_placeholder s : ctx s -> (forall r, remaining s <> bs "%" ++ r) -> fails (p_placeholder dp s).
Proof.
  intros Hc N. pose proof (@G_placeholder (ev s) (S (remaining_len s)) s (ctx_sok s Hc) ltac:(lia)) as G.
  unfold R in G. cbn [e_date any_env] in G. destruct (p_placeholder dp s) as [s' x| | |]; cbn; auto.
  destruct G as [A (sm & A1 & A2 & _ & L & _ & T & _)].
  pose proof (remaining_split s sm (ctx_sok s Hc) A1) as E.
  destruct x as [x reg]. cbn [l_val] in T. destruct x; cbn in T;
    repeat match goal with H : exists _, _ |- _ => destruct H as [? H] end; destruct T as [T _];
    rewrite T in E; eapply N; rewrite E; cbn [bs list_byte_of_string app]; reflexivity.
Qed.
Lemma nl_free_prefix (a b ln k : str) : a ++ b = ln ++ k -> no_nl a -> line_end k -> exists r, ln = a ++ r.
Proof.
  intros E Na Lk. apply app_eq_app in E as (l & [[-> ->]|[-> ->]]); [|eauto].
  destruct l as [|c l]; [exists []; now rewrite !app_nil_r|]. exfalso. destruct Lk as [L|[r L]]; [discriminate|].
  cbn in L. injection L as -> _. apply Na. apply in_or_app. right. now left.
Qed.
Lemma blanks_no_nl a : blanks a -> no_nl a.
Proof. intros H Hi. eapply Forall_forall in H; eauto. discriminate. Qed.
Lemma no_defs_e s ln k : ctx s -> @edge (ev s) s -> remaining s = ln ++ k -> line_end k -> absent (bs "::") ln ->
  fails (p_definition_list up dp s).
Proof.
  intros Hc B0 El Ek N. apply (refuse (p_definition_list up dp) BDefList (@edge (ev s)) s Hc B0);
    [exact (@GP_definition_list (ev s) _ true)|].
  intros hi l L1 L2 (Hne & H) Er. destruct l as [|x l]; [congruence|]. cbn in H.
  destruct H as (mid & Hm & T & H). unfold term_defs_ok in T.
  set (tlo := r_off (l_reg (td_term (l_val x)))) in *. set (tl := r_len (l_reg (td_term (l_val x)))) in *.
  destruct T as (T1 & T2 & T3 & _ & _ & _ & _ & _ & T4 & _ & T5 & _ & T6 & _ & T7 & _).
  assert (Hr : mid <= hi).
  { clear -H. revert mid H. induction l as [|y l IH]; intros mid H; cbn in H; [lia|].
    destruct H as (m & Hm & _ & H). apply IH in H. lia. }
  rewrite (slice_app (sp_start s) (tlo + tl) hi) in Er by lia.
  rewrite (slice_app (sp_start s) (tlo + tl - 2) (tlo + tl)) in Er by lia.
  rewrite (slice_app (sp_start s) tlo (tlo + tl - 2)) in Er by lia. rewrite T4 in Er. rewrite El, <- app_assoc in Er.
  symmetry in Er. apply nl_free_prefix in Er as [r ->]; auto.
  - apply (N (slice (sp_start s) tlo (sp_inner s) ++ slice tlo (tlo + tl - 2) (sp_inner s)) r).
    rewrite <- !app_assoc. reflexivity.
  - intro Hi. apply in_app_or in Hi as [Hi|Hi]; [apply in_app_or in Hi as [Hi|Hi]|].
    + now apply blanks_no_nl in T2.
    + now apply T5.
    + cbn in Hi. intuition discriminate.
Qed.
Lemma no_defs s ln k : ctx s -> lstart s -> remaining s = ln ++ k -> line_end k -> absent (bs "::") ln ->
  fails (p_definition_list up dp s).
Proof. intros C B. exact (no_defs_e s ln k C (ctx_edge s B)). Qed.
End Refuse.
