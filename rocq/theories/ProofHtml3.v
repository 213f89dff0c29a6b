(** From the rendering steps to pages: tokens, looks, ids, header paths,
    outcomes and templates. *)
From Coq Require Import Permutation.
From Verif Require Import Base ModelSpan ModelAst ModelTable ModelLink ModelElem ModelPath ModelHtml SpecHtml
  ProofTree ProofElem2 ProofHtml ProofHtmlId ProofHtml2.

(** * Looks and merged texts *)

Lemma chars_app a b : chars (a ++ b) = chars a ++ chars b.
Proof. unfold chars. now rewrite filter_app, map_app. Qed.
Lemma marks_cons_tok t ts stack : marks stack (cons_tok t ts) = marks stack (t :: ts).
Proof.
  destruct t as [[|b s]| | | |]; try reflexivity.
  - cbn [cons_tok marks map]. unfold chars. cbn. now destruct (in_pre stack).
  - destruct ts as [|[s'| | | |] ts]; try reflexivity.
    cbn [cons_tok marks]. destruct (in_pre stack).
    + rewrite map_app. now rewrite <- app_assoc.
    + rewrite chars_app. now rewrite <- app_assoc.
Qed.
Lemma marks_norm ts : forall stack, marks stack (norm ts) = marks stack ts.
Proof.
  induction ts as [|t ts IH]; intro stack; [reflexivity|]. rewrite norm_cons, marks_cons_tok.
  destruct t; cbn [marks]; now rewrite IH.
Qed.

Section Page.
Variable lower lossy : str -> str.
Variable highlight : option str -> list str -> option str.
Variable rel_parse : str -> option uri.
Variable frag_parse : str -> option str.
Variable cfg : html_config.
Notation slug := (normalize_id lower).
Notation page_html := (page_html lower lossy highlight rel_parse frag_parse cfg).
Notation to_html_string := (to_html_string lower lossy highlight rel_parse frag_parse cfg).
Notation href_of := (href_of rel_parse frag_parse cfg).
Notation page_look := (page_look slug lossy href_of cfg).

Definition own_keys (p : page) (k : str) : Prop := In (RKey k) (page_raw p).

Lemma page_good p : tame (hc_comments cfg) p -> Forall (good cfg (own_keys p)) (page_raw p).
Proof.
  unfold tame. rewrite !Forall_forall. intros T r I. split; [now apply T|]. destruct r; auto.
Qed.

Record page_fine (p : page) (o : str) (ts : list token) (us : list str) : Prop := {
  pf_scan : scan o = Some ts;
  pf_ok : Forall tok_ok ts;
  pf_fine : Forall (tag_fine (own_keys p)) ts;
  pf_nested : nested [] ts = true;
  pf_marks : marks [] ts = page_look p;
  pf_issue : exists m, issue [] (page_requests slug p) = Some (m, us);
  pf_ids : ~ own_keys p (bs "id") -> Permutation (ids ts) us
}.

Theorem page_rendered p o :
  (forall s u, rel_parse s = Some u -> uri_clean u) ->
  (forall s f, frag_parse s = Some f -> free attr_markup f) ->
  hc_server cfg = false -> tame (hc_comments cfg) p ->
  to_html_string p = HOk o -> exists ts us, page_fine p o ts us.
Proof.
  intros A B C T E. unfold ModelHtml.to_html_string in E.
  destruct (page_html p hst0) as [[st' o']| | |] eqn:E1; try discriminate. injection E as ->.
  destruct (R_page lower lossy highlight rel_parse frag_parse cfg A B C (own_keys p) p (page_good p T)
              hst0 [] hrel_nil _ _ E1) as (ts & us & S1 & T1 & G1 & L1 & M1 & I1 & P1 & H1).
  exists (norm ts), us. constructor.
  - rewrite <- S1. now apply scan_show.
  - now apply tok_ok_norm.
  - rewrite Forall_forall in *. intros t I. destruct (is_text t) eqn:X.
    + destruct t; try discriminate. apply tag_text.
    + apply G1. now apply in_norm_tag.
  - rewrite nested_norm. specialize (L1 [] []). rewrite app_nil_r in L1. exact L1.
  - rewrite marks_norm. specialize (M1 [] [] eq_refl). rewrite !app_nil_r in M1. exact M1.
  - exists (hs_ids st'). exact I1.
  - intro N. rewrite ids_norm. now apply P1.
Qed.
End Page.

(** * Header paths *)

Fixpoint stepwise (h : history) : Prop :=
  match h with
  | (l, _) :: (((l', _) :: _) as h') => l <= l' + 1 /\ stepwise h'
  | _ => True
  end.
Lemma latest_below_S l h : 1 <= l -> latest_below (S l) h = latest_below l h ++
  match latest l h with Some t => [t] | None => [] end.
Proof.
  intro P. unfold latest_below. destruct l as [|l]; [lia|]. cbn [Nat.sub]. rewrite Nat.sub_0_r.
  rewrite (seq_S l 1), flat_map_app. cbn [flat_map]. now rewrite app_nil_r.
Qed.
Lemma latest_below_higher L l t h : L <= l -> latest_below L ((l, t) :: h) = latest_below L h.
Proof.
  intro P. unfold latest_below. rewrite !flat_map_concat_map. f_equal. apply map_ext_in.
  intros k I. apply in_seq in I. cbn [latest]. destruct (l =? k) eqn:E; [|reflexivity].
  apply Nat.eqb_eq in E. lia.
Qed.
Lemma latest_below_nil L : latest_below L [] = [].
Proof. unfold latest_below. induction (seq 1 (L - 1)); auto. Qed.
Lemma paths_agree h : stepwise h -> Forall (fun x => 1 <= fst x) h -> forall L,
  match h with (l, _) :: _ => L <= l + 1 | [] => True end ->
  latest_below L h = enclosing L h.
Proof.
  induction h as [|[l t] h IH]; intros S1 F L HL; [apply latest_below_nil|].
  inversion F as [|? ? F1 F2]; subst. cbn [fst] in F1.
  assert (S2 : stepwise h) by (destruct h as [|[l' t'] h]; [exact I | apply S1]).
  assert (H2 : match h with (l', _) :: _ => l <= l' + 1 | [] => True end)
    by (destruct h as [|[l' t'] h]; [exact I | apply S1]).
  cbn [enclosing]. destruct (l <? L) eqn:E.
  - apply Nat.ltb_lt in E. assert (L = S l) by lia. subst L. rewrite latest_below_S by lia.
    rewrite latest_below_higher by lia. cbn [latest]. rewrite Nat.eqb_refl. f_equal. now apply IH.
  - apply Nat.ltb_ge in E. rewrite latest_below_higher by lia. apply IH; auto.
    destruct h as [|[l' t'] h]; [exact I | lia].
Qed.

Lemma history_levels slug es : map fst (rev (fold_left (event_history slug) es [])) = header_levels es.
Proof.
  assert (G : forall h, map fst (rev (fold_left (event_history slug) es h)) = map fst (rev h) ++ header_levels es).
  { induction es as [|e es IH]; intro h; [cbn; now rewrite app_nil_r|]. cbn [fold_left].
    rewrite IH. destruct e; cbn [event_history header_levels flat_map]; [|reflexivity].
    cbn [rev]. rewrite map_app. cbn [map fst]. now rewrite <- app_assoc. }
  apply (G []).
Qed.
Lemma no_skip_app prev a b : no_skip prev (a ++ b) ->
  no_skip prev a /\ no_skip (match rev a with x :: _ => Some x | [] => prev end) b.
Proof.
  revert prev. induction a as [|x a IH]; intros prev H; [split; [exact I | exact H]|].
  cbn [app no_skip] in H. destruct H as (P1 & P2 & H). apply IH in H. destruct H as [A B].
  split; [cbn [no_skip]; auto|]. cbn [rev]. destruct (rev a) as [|y r]; exact B.
Qed.
Lemma no_skip_stepwise h : no_skip None (map fst (rev h)) -> stepwise h /\ Forall (fun x => 1 <= fst x) h.
Proof.
  induction h as [|[l t] h IH]; intro N; [split; constructor|]. cbn [rev] in N. rewrite map_app in N.
  apply no_skip_app in N. destruct N as [N1 N2]. destruct (IH N1) as [S1 F]. cbn [map fst no_skip] in N2.
  destruct N2 as (P1 & P2 & _). rewrite <- map_rev, rev_involutive in P2. split; [|constructor; auto].
  destruct h as [|[l' t'] h]; [exact I|]. cbn [map fst] in P2. split; auto.
Qed.
Theorem header_path slug es level : no_skip None (header_levels es ++ [level]) ->
  latest_below level (history_of slug es) = enclosing level (history_of slug es).
Proof.
  intro N. pose proof N as N'. apply no_skip_app in N. destruct N as [N1 N2].
  rewrite <- (history_levels slug) in N1, N2. fold (history_of slug es) in *.
  apply no_skip_stepwise in N1. destruct N1 as [S1 F]. apply paths_agree; auto.
  cbn [no_skip] in N2. destruct N2 as (_ & P2 & _). rewrite <- map_rev, rev_involutive in P2.
  destruct (history_of slug es) as [|[l t] h]; [exact I | exact P2].
Qed.
