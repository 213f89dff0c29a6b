(** More claims about parsed pages: tiling, fences, forward movement. *)
From Verif Require Import Base ModelSpan ModelComb ModelAst ModelTable ModelLink ModelInline ModelBlock
  SpecDoc SpecBlock SpecTree ProofBase ProofBytes ProofContract ProofPrim ProofInline ProofLink ProofText
  ProofBlock ProofFence ProofDefs ProofTable ProofList ProofPage ProofTree ProofEnv ProofClaims.

(** * Tiling *)

Lemma app_inj_len {A} (a b c d : list A) : length a = length c -> a ++ b = c ++ d -> a = c /\ b = d.
Proof.
  revert c. induction a as [|x a IH]; intros [|y c] L E; cbn in *; try discriminate; auto.
  injection E as -> E. injection L as L. destruct (IH c L E). subst. auto.
Qed.

Lemma cok_tiles up dp inner bd d lo c hi : container_ok up dp inner bd d lo c hi -> c <> [] /\ tiles lo c hi.
Proof.
  intros (Hne & H & _). split; auto. clear Hne. revert lo H. induction c as [|x c IH]; cbn [chain tiles]; intros lo H; auto.
  destruct H as (_ & <- & _ & Hl & _ & _ & H). auto.
Qed.

Lemma tiles_le lo c hi : tiles lo c hi -> lo <= hi.
Proof. revert lo. induction c as [|x c IH]; cbn; intros lo H; [lia|]. destruct H as (_ & H1 & H). apply IH in H. lia. Qed.
Lemma tiles_lt lo c hi : c <> [] -> tiles lo c hi -> lo < hi.
Proof. destruct c as [|x c]; [congruence|]. intros _ (_ & H1 & H). apply tiles_le in H. lia. Qed.

Lemma text_len_le (inner : str) lo hi t : slice lo hi inner = t -> length t <= hi - lo.
Proof. intros <-. unfold slice. rewrite firstn_length. lia. Qed.

Lemma para_tile up dp inner bd d lo ls hi :
  para_ok up dp inner bd d lo ls hi -> lines_tile inner lo ls hi.
Proof.
  revert lo. induction ls as [|c ls IH]; intro lo; cbn [para_ok lines_tile]; auto.
  intros (a & t & e & mid & E & Em & Ha & He & _ & Hc & H).
  destruct (cok_tiles _ _ _ _ _ _ _ _ Hc) as [Hne Ht].
  exists (lo + length a), (lo + length a + length t), mid. split; [lia|].
  assert (E1 : slice lo (lo + length a) inner = a).
  { pose proof (f_equal (firstn (length a)) E) as K. unfold slice in K |- *. rewrite firstn_firstn in K.
    replace (Nat.min (length a) (mid - lo)) with (length a) in K by lia.
    replace (lo + length a - lo) with (length a) by lia. rewrite K, firstn_app, firstn_all, Nat.sub_diag.
    apply app_nil_r. }
  assert (E2 : slice (lo + length a + length t) mid inner = e).
  { rewrite app_assoc in E. rewrite (slice_app lo (lo + length a + length t) mid) in E by lia.
    assert (L : length (slice lo (lo + length a + length t) inner) = length (a ++ t)).
    { assert (Lm : length (slice lo mid inner) = mid - lo).
      { rewrite (slice_app lo (lo + length a + length t) mid) by lia. rewrite E, !app_length. lia. }
      rewrite app_length. unfold slice in Lm |- *. rewrite firstn_length in Lm |- *. lia. }
    apply app_inj_len in E; auto. apply E. }
  rewrite E1, E2. split; auto. split; auto. split; auto. split; [lia|]. split; auto.
Qed.

(** * Fences *)

Lemma fenced_body_nl fence body lines : fenced_lines fence body lines -> body = [] \/ exists r, body = r ++ [b_nl].
Proof.
  intros (es & El & -> & He & _). revert es El He. induction lines as [|l lines IH]; intros es El He.
  - left. now destruct es.
  - right. destruct es as [|e es]; [discriminate|]. inversion He as [|? ? H1 H2]; subst.
    injection El as El. cbn [combine map concat fst snd]. destruct (IH es El H2) as [->|[r ->]].
    + rewrite app_nil_r. destruct H1 as [->| ->]; [exists l; reflexivity | exists (l ++ [b_cr]); now rewrite <- app_assoc].
    + exists ((l ++ e) ++ r). now rewrite app_assoc.
Qed.

Lemma bol_after (inner : str) lo hi x y : slice lo hi inner = x ++ y -> (exists r, x = r ++ [b_nl]) -> bol inner (lo + length x).
Proof.
  intros E [r ->]. right. rewrite app_length. cbn [length].
  replace (lo + (length r + 1) - 1) with (lo + length r) by lia.
  assert (K : nth_error (slice lo hi inner) (length r) = Some b_nl).
  { rewrite E, <- app_assoc, nth_error_app2 by lia. now rewrite Nat.sub_diag. }
  unfold slice in K. rewrite nth_error_firstn in K.
  - now rewrite nth_error_skipn in K.
  - assert (nth_error (firstn (hi - lo) (skipn lo inner)) (length r) <> None) by congruence.
    apply nth_error_Some in H. rewrite firstn_length in H. lia.
Qed.

Lemma slice_tail (inner : str) lo hi x y : slice lo hi inner = x ++ y -> slice (lo + length x) (lo + length x + length y) inner = y.
Proof.
  intro E. pose proof (f_equal (skipn (length x)) E) as K. rewrite skipn_app, skipn_all, Nat.sub_diag in K. cbn in K.
  unfold slice in K |- *. rewrite skipn_firstn_comm, skipn_skipn in K.
  replace (lo + length x + length y - (lo + length x)) with (length y) by lia.
  replace (lo + length x) with (length x + lo) by lia.
  assert (L : length y <= hi - lo - length x).
  { rewrite <- K, firstn_length. lia. }
  apply (f_equal (firstn (length y))) in K. rewrite firstn_firstn, firstn_all in K.
  now replace (Nat.min (length y) (hi - lo - length x)) with (length y) in K by lia.
Qed.

Lemma closing_fence (inner fence a pre body cl d1 d2 e : str) lo hi :
  lo <= hi -> hi <= length inner ->
  slice lo hi inner = pre ++ e ++ body ++ cl ++ fence ++ d1 ++ d2 ->
  (e = [b_nl] \/ e = [b_cr; b_nl]) -> (body = [] \/ exists r, body = r ++ [b_nl]) ->
  blanks cl -> blanks d1 -> eol_at inner hi d2 ->
  exists i, lo < i /\ i <= hi /\ fence_at inner fence i.
Proof.
  intros L1 L2 E He Hb Hcl Hd1 Hd2.
  set (x := pre ++ e ++ body). set (y := cl ++ fence ++ d1 ++ d2).
  assert (Exy : slice lo hi inner = x ++ y) by (unfold x, y; now rewrite E, <- !app_assoc).
  assert (Hx : exists r, x = r ++ [b_nl]).
  { unfold x. destruct Hb as [->|[r ->]].
    - rewrite app_nil_r. destruct He as [->| ->]; [exists pre; auto | exists (pre ++ [b_cr]); now rewrite <- app_assoc].
    - exists (pre ++ e ++ r). now rewrite <- !app_assoc. }
  pose proof (f_equal (@length _) Exy) as Len. rewrite slice_length, app_length in Len by lia.
  assert (0 < length x) by (destruct Hx as [r ->]; rewrite app_length; cbn; lia).
  exists (lo + length x). split; [lia|]. split; [lia|]. split; [eapply bol_after; eauto|].
  exists cl, d1, d2. fold y. split; [eapply slice_tail; eauto|].
  replace (lo + length x + length y) with hi by lia. auto.
Qed.

Section Claims2.
Variable up : str -> option uri.
Variable dp : str -> option date.
Variable input : str.
Variable rest : span.
Variable p : page.
Local Notation parses := (parse_page up dp input = Ok rest p).
Local Notation stop r := (r_off r + r_len r).
Local Notation soft := (soft_boundary input).

Lemma claim_lines_tile r ls : parses -> In (r, NBlock (BParagraph ls)) (elements p) ->
  ls <> [] /\ lines_tile input (r_off r) ls (stop r).
Proof.
  intros H Hin. destruct (claim_paragraph up dp input rest p r ls H Hin) as [H1 H2].
  split; auto. eapply para_tile; eauto.
Qed.

Lemma lines_tile_member lo ls hi c :
  lines_tile input lo ls hi -> In c ls -> exists a b, lo <= a /\ a < b /\ b <= hi /\ tiles a c b.
Proof.
  revert lo. induction ls as [|x ls IH]; intros lo H Hin; [destruct Hin|].
  destruct H as (a & b & mid & L1 & _ & Hne & Ht & L2 & _ & H).
  pose proof (tiles_lt _ _ _ Hne Ht).
  assert (Lm : mid <= hi).
  { clear - H. revert mid H. induction ls as [|y ls IH]; intros mid H; [cbn in H; lia|].
    destruct H as (a & b & m & L1 & _ & Hne & Ht & L2 & _ & H). apply tiles_le in Ht. apply IH in H. lia. }
  destruct Hin as [->|Hin]; [exists a, b; repeat split; auto; lia|].
  destruct (IH mid H Hin) as (a' & b' & K1 & K2 & K3 & K4). exists a', b'. repeat split; auto; lia.
Qed.

Lemma claim_tiles r n c : parses -> In (r, n) (elements p) -> In c (containers n) ->
  exists lo hi, r_off r <= lo /\ lo < hi /\ hi <= stop r /\ tiles lo c hi.
Proof.
  intros H Hin Hc.
  destruct n as [b|i|x|x|cl|t|t|t|t]; try (destruct Hc; fail).
  - destruct b as [| | |h| | |ls| | |]; try (destruct Hc; fail).
    + destruct Hc as [<-|[]]. pose proof (claim_header up dp input rest p r h H Hin) as (_ & _ & K).
      pose proof (claim_in_bounds up dp input rest p r _ H Hin) as Hb.
      destruct K as (sp & w1 & c & w2 & f & e & E & _ & _ & _ & _ & _ & _ & _ & _ & _ & _ & _ & Hcok).
      cbv zeta in Hcok. apply cok_tiles in Hcok as [Hne Ht].
      pose proof (f_equal (@length _) E) as Len. rewrite slice_length in Len by lia.
      rewrite !app_length, !repeat_length in Len. apply tiles_lt in Ht as Hlt; auto.
      eexists _, _. split; [|split; [|split; [|exact Ht]]]; lia.
    + destruct (claim_lines_tile r ls H Hin) as [_ K]. eapply lines_tile_member; eauto.
  - destruct cl as [c0| |]; try (destruct Hc; fail). destruct Hc as [<-|[]].
    pose proof (node_claim up dp input rest p r _ H Hin I) as (K & _). cbn [cell_ok] in K.
    apply cok_tiles in K as [Hne Ht]. eexists _, _. split; [|split; [|split; [|exact Ht]]]; auto. now apply tiles_lt in Ht.
  - destruct Hc as [<-|[]]. pose proof (node_claim up dp input rest p r _ H Hin I) as K. cbn [node_ok] in K.
    apply cok_tiles in K as [Hne Ht]. pose proof (tiles_lt _ _ _ Hne Ht). eexists _, _. split; [|split; [|split; [|exact Ht]]]; lia.
  - destruct Hc as [<-|[]]. pose proof (node_claim up dp input rest p r _ H Hin I) as (a & b & L1 & L2 & K).
    apply cok_tiles in K as [Hne Ht]. pose proof (tiles_lt _ _ _ Hne Ht). exists a, b. auto.
Qed.

Lemma claim_code_closed r c : parses -> In (r, NBlock (BCode c)) (elements p) ->
  exists i, r_off r < i /\ i <= stop r /\ fence_at input (bs "}}}") i.
Proof.
  intros H Hin. pose proof (claim_in_bounds up dp input rest p r _ H Hin) as Hb.
  destruct (claim_code up dp input rest p r c H Hin) as
    (a & lang & b & meta & f & pairs & e & body & raw & cl & d & E & _ & _ & _ & He & Hcl & (d1 & d2 & -> & Hd1 & Hd2) & _ & _ & _ & _ & Hf & _).
  apply (closing_fence input (bs "}}}") a (a ++ bs "{{{" ++ lang ++ b ++ meta ++ f) body cl d1 d2 e); auto; try lia.
  - now rewrite E, <- !app_assoc.
  - eapply fenced_body_nl; eauto.
Qed.

Lemma claim_math_closed r c : parses -> In (r, NBlock (BMath c)) (elements p) ->
  exists i, r_off r < i /\ i <= stop r /\ fence_at input (bs "}}$") i.
Proof.
  intros H Hin. pose proof (claim_in_bounds up dp input rest p r _ H Hin) as Hb.
  destruct (claim_math up dp input rest p r c H Hin) as
    (a & b & cl & d & fence & body & raw & e & E & _ & _ & He & Hcl & (d1 & d2 & -> & Hd1 & Hd2) & _ & Hf & _).
  apply (closing_fence input (bs "}}$") a (a ++ bs "{{$" ++ fence ++ b) body cl d1 d2 e); auto; try lia.
  - now rewrite E, <- !app_assoc.
  - eapply fenced_body_nl; eauto.
Qed.

(** ** Nesting and depth *)

Lemma tree_ok_nested t : forall d, tree_ok d t -> tree_nested t /\ depth_ok d t.
Proof.
  revert t. fix IH 1. intros [r n kids] d H. cbn [tree_ok tree_nested depth_ok] in *.
  destruct H as (Hd & _ & H). split; [|split; [exact Hd|]].
  - clear Hd. set (hi := r_off r + r_len r) in *. clearbody hi. revert H. generalize (r_off r) as lo. revert hi.
    induction kids as [|k kids IHk]; intros hi lo H; [exact H|]. destruct H as (L & Hk & H).
    split; [exact L|]. split; [exact (proj1 (IH k _ Hk))|]. apply IHk. exact H.
  - clear Hd. set (hi := r_off r + r_len r) in *. clearbody hi. revert H. generalize (r_off r) as lo. revert hi.
    induction kids as [|k kids IHk]; intros hi lo H; [exact I|]. destruct H as (L & Hk & H).
    split; [exact (proj2 (IH k _ Hk))|]. eapply IHk. exact H.
Qed.

Lemma forest_impl (P Q : rtree -> Prop) lo l hi :
  (forall t, P t -> Q t) -> forest P lo l hi -> forest Q lo l hi.
Proof.
  intro HPQ. revert lo. induction l as [|t l IH]; intros lo H; [exact H|].
  destruct H as (L & Ht & H). split; [exact L|]. split; [auto|]. apply IH. exact H.
Qed.

Lemma forest_Forall P lo l hi : forest P lo l hi -> Forall P l.
Proof.
  revert lo. induction l as [|t l IH]; intros lo H; constructor; destruct H as (L & Ht & H); eauto.
Qed.

Lemma claim_tree_nested : parses -> forest tree_nested 0 (page_trees false p) (length input).
Proof.
  intro H. eapply forest_impl; [|eapply claim_nested; eauto]. intros t Ht. eapply tree_ok_nested; eauto.
Qed.

Lemma claim_depth : parses -> Forall (depth_ok 0) (page_trees false p).
Proof.
  intro H. eapply Forall_impl; [|eapply forest_Forall, claim_nested; eauto].
  intros t Ht. eapply tree_ok_nested; eauto.
Qed.

Lemma covered lo q :
  chain soft (ws_gap input) (fun lo hi => lo <= hi /\ ws_gap input lo hi)
        (fun lo hi b => bol input lo /\ block_ok up dp input soft true 0 lo hi b) 0 lo q (length input) ->
  page_covered input lo q.
Proof.
  revert lo. induction q as [|x q IH]; intros lo K; cbn [chain page_covered] in *; [exact K|].
  destruct K as (L & G & _ & Hl & _ & [Hb _] & K). auto 6.
Qed.

Lemma claim_covered : parses -> page_covered input 0 p.
Proof. intro H. apply covered, (parse_page_ok up dp input rest p H). Qed.

(** ** Tables and definition lists *)

Lemma rows_ne d lo rs hi : rows_ok up dp input soft d lo rs hi -> Forall (fun r => snd r <> []) rs.
Proof.
  revert lo. induction rs as [|r rs IH]; intros lo H; constructor; destruct H as (mid & _ & Hr & H); eauto.
  destruct Hr as (_ & _ & Hne & _). exact Hne.
Qed.

Lemma claim_table_cells r t : parses -> In (r, NBlock (BTable t)) (elements p) ->
  NoDup (map fst (t_cells t)) /\
  (forall i j, has_cell t i j -> i < t_row_cnt t /\ j < t_col_cnt t /\ forall j', j' <= j -> has_cell t i j') /\
  (forall i, i < t_row_cnt t -> has_cell t i 0) /\
  (exists j, has_cell t (t_row_cnt t - 1) j) /\
  (exists i, i < t_row_cnt t /\ forall x a, In (CellPos i 0, x) (t_cells t) -> l_val x <> CAlign a).
Proof.
  intros H Hin. destruct (claim_table up dp input rest p r t H Hin) as (nested & first & rs & Hr & (Hnd & Hc) & E1 & E2 & _ & Hex).
  apply rows_ne in Hr. set (rows := first :: rs) in *.
  assert (H0 : forall i, i < t_row_cnt t -> has_cell t i 0).
  { intros i Hi. rewrite E1 in Hi. destruct (nth_error rows i) as [row|] eqn:Er; [|apply nth_error_None in Er; lia].
    pose proof (proj1 (Forall_forall _ _) Hr row (nth_error_In _ _ Er)) as Hne. cbn in Hne.
    destruct (snd row) as [|x l] eqn:Es; [congruence|]. exists x. apply Hc. exists row. split; auto. now rewrite Es. }
  split; auto. split; [|split; [exact H0|split]].
  - intros i j [x Hx]. apply Hc in Hx as (row & Er & Ej).
    assert (Li : i < length rows) by (apply nth_error_Some; congruence).
    assert (Lj : j < length (snd row)) by (apply nth_error_Some; congruence).
    split; [lia|]. split.
    + rewrite E2. eapply Nat.lt_le_trans; [exact Lj|].
      pose proof (proj1 (list_max_le (map (fun r => length (snd r)) rows) (list_max (map (fun r => length (snd r)) rows))) (Nat.le_refl _)) as K.
      rewrite Forall_forall in K. apply K. apply in_map_iff. exists row. split; auto. eapply nth_error_In; eauto.
    + intros j' Hj'. destruct (nth_error (snd row) j') as [y|] eqn:Ey; [|apply nth_error_None in Ey; lia].
      exists y. apply Hc. exists row. auto.
  - exists 0. apply H0. rewrite E1. unfold rows. cbn [length]. lia.
  - apply Exists_exists in Hex as (row & Hrow & Hx). apply In_nth_error in Hrow as [i Hi].
    exists i. split; [rewrite E1; apply nth_error_Some; congruence|].
    intros x a Hin'. apply Hc in Hin' as (row' & Hi' & Hj). rewrite Hi in Hi'. injection Hi' as <-.
    destruct (snd row) as [|y l]; [discriminate|]. cbn in Hj. injection Hj as ->.
    specialize (Hx x l eq_refl). intro E. now rewrite E in Hx.
Qed.

Lemma claim_defs_ne r l : parses -> In (r, NBlock (BDefList l)) (elements p) ->
  l <> [] /\ Forall (fun x => l_val (td_term (l_val x)) <> [] /\ l_val (td_defs (l_val x)) <> [] /\
                              Forall (fun d => l_val d <> []) (l_val (td_defs (l_val x)))) l.
Proof.
  intros H Hin. destruct (claim_defs up dp input rest p r l H Hin) as [Hne K]. split; auto. clear Hne Hin.
  revert K. generalize (r_off r) as lo, (stop r) as hi, (S (r_depth r)) as d.
  induction l as [|x l IH]; intros lo hi d K; constructor; destruct K as (mid & _ & Hx & K); eauto.
  assert (Hch : forall m ds h, chain soft exact exact (def_line_ok up dp input soft d) d m ds h -> Forall (fun y => l_val y <> []) ds).
  { clear. intros m ds. revert m. induction ds as [|y ds IH]; intros m h K; constructor; destruct K as (_ & _ & _ & _ & _ & K1 & K2); eauto.
    destruct K1 as (a & b & t & e & _ & _ & _ & _ & _ & _ & _ & Hc). cbv zeta in Hc. apply Hc. }
  unfold term_defs_ok in Hx. cbv zeta in Hx.
  destruct Hx as (_ & _ & _ & _ & _ & _ & _ & _ & _ & Hc & _ & _ & _ & _ & _ & Hb & Hd & _).
  split; [apply Hc|]. split; auto.
  destruct Hd as [(f & o & E & _ & _ & (b & t & _ & _ & _ & _ & _ & Hf) & _ & _ & _ & Ho)|[_ Ho]].
  - rewrite E. constructor; [apply Hf|eauto].
  - eauto.
Qed.

(** ** Comments *)

Lemma claim_comment_last r n c c1 x c2 t : parses -> In (r, n) (elements p) -> In c (containers n) ->
  c = c1 ++ x :: c2 -> l_val x = IComment (CLine t) ->
  c2 = [] \/ line_break input (stop (l_reg x)).
Proof.
  intros H Hin Hc E Ex.
  enough (K : exists d lo hi, container_ok up dp input soft d lo c hi).
  { destruct K as (d & lo & hi & _ & _ & K). eapply K; eauto. }
  clear E. destruct n as [b|i|y|y|cl|u|u|u|u]; try (destruct Hc; fail).
  - destruct b as [| | |h| | |ls| | |]; try (destruct Hc; fail).
    + destruct Hc as [<-|[]]. destruct (claim_header up dp input rest p r h H Hin) as (_ & _ & K).
      destruct K as (sp & w1 & c' & w2 & f & e & _ & _ & _ & _ & _ & _ & _ & _ & _ & _ & _ & _ & K).
      cbv zeta in K. eauto.
    + destruct (claim_paragraph up dp input rest p r ls H Hin) as [_ K]. cbn [containers] in Hc.
      revert K. generalize (r_off r) as lo, (stop r) as hi. induction ls as [|l0 ls IH]; [destruct Hc|].
      intros lo hi (a & t' & e & mid & _ & _ & _ & _ & _ & K1 & K2).
      destruct Hc as [->|Hc]; [eauto|]. clear Hin. revert Hc mid hi K2. clear - ls.
      induction ls as [|l1 ls IH]; [intros []|]. intros Hc mid hi (a & t' & e & m & _ & _ & _ & _ & _ & K1 & K2).
      destruct Hc as [->|Hc]; eauto.
  - destruct cl as [c0| |]; try (destruct Hc; fail). destruct Hc as [<-|[]].
    destruct (node_claim up dp input rest p r _ H Hin I) as (K & _). eauto.
  - destruct Hc as [<-|[]]. pose proof (node_claim up dp input rest p r _ H Hin I) as K. cbn [node_ok] in K. eauto.
  - destruct Hc as [<-|[]]. destruct (node_claim up dp input rest p r _ H Hin I) as (a & b & _ & _ & K). eauto.
Qed.

End Claims2.

(** * Forward movement *)

Section Moves.
Variable up : str -> option uri.
Variable dp : str -> option date.

Definition any_env (inner : str) : env.
Proof.
  refine (Env inner up dp (fun _ => True) I _ _ True _ _ _); auto.
Defined.

Lemma any_sok s : wf_span s -> @sok (any_env (sp_inner s)) s.
Proof. intros [H1 H2]. repeat split; auto. Qed.

Lemma adv_suffix s s' : @adv (any_env (sp_inner s)) s s' -> suffix_span s s'.
Proof. intros (H1 & H2 & H3 & H4 & H5 & _). repeat split; auto. Qed.

Lemma inline_edge s : inline_start s -> @edge (any_env (sp_inner s)) s.
Proof.
  intros [Hi|[Hi|[Hi|Hi]]]; [now left| | |]; right.
  - destruct Hi as [Hi|Hi]; [now left|]. right. now left.
  - right. right. now left.
  - right. right. right. destruct Hi as [(b & H1 & H2)|Hi]; [left|now right].
    exists b. split; auto. unfold seam_byte. apply existsb_exists. exists b. split; auto. now apply beqb_eq.
Qed.

Ltac fwd L := let K := fresh in
  intros s s' a Hw Hpre E; pose proof (L (any_env (sp_inner s)) (S (remaining_len s)) s (any_sok s Hw)) as K;
  specialize (K ltac:(lia)); try specialize (K (inline_edge s Hpre));
  unfold R in K; cbn [e_uri e_date any_env] in K; rewrite E in K; now apply adv_suffix.

Ltac conj := lazymatch goal with |- _ /\ _ => split; [|conj] | _ => idtac end.

Notation anyw := (fun _ : span => True).

Lemma forward_blocks :
  forward anyw (p_header up dp) /\ forward anyw p_divider /\ forward anyw (p_placeholder dp) /\
  forward anyw p_blockquote /\ forward anyw p_code_block /\ forward anyw p_math_block /\
  forward anyw (p_table up dp) /\ forward anyw (p_list up dp) /\
  forward inline_start (p_definition_list up dp) /\ forward inline_start (p_paragraph up dp).
Proof.
  conj.
  - fwd constr:(fun e n => @G_header e n).
  - fwd constr:(fun e n => @G_divider e n).
  - fwd constr:(fun e n => @G_placeholder e n).
  - fwd constr:(fun e n => @G_blockquote e n).
  - fwd constr:(fun e n => @G_code_block e n true).
  - fwd constr:(fun e n => @G_math_block e n true).
  - fwd constr:(fun e n => @G_table e n).
  - fwd constr:(fun e n => @G_p_list e n).
  - fwd constr:(fun e n => @GP_definition_list e n true).
  - fwd constr:(fun e n => @GP_p_paragraph e n).
Qed.

Lemma forward_inlines :
  forward anyw p_comment /\ forward anyw code_inline /\ forward anyw math_inline /\ forward anyw tags /\
  forward anyw (raw_link up) /\ forward anyw (p_transclusion up) /\ forward anyw (p_link up dp) /\
  forward anyw p_keyword /\ forward anyw (p_decorated up dp) /\
  forward inline_start (inline_element_container up dp).
Proof.
  conj.
  - fwd constr:(fun e n => @G_p_comment e n).
  - fwd constr:(fun e n => @G_code_inline e n).
  - fwd constr:(fun e n => @G_math_inline e n).
  - fwd constr:(fun e n => @G_tags e n).
  - fwd constr:(fun e n => @G_raw_link e n).
  - fwd constr:(fun e n => @G_p_transclusion e n).
  - fwd constr:(fun e n => @G_p_link e n).
  - fwd constr:(fun e n => @G_p_keyword e n).
  - fwd constr:(fun e n => @G_p_decorated e n).
  - fwd constr:(fun e n => @GP_container e n).
Qed.

End Moves.
