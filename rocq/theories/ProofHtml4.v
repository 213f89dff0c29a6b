(** Outcomes of rendering, the text around a header, and templates. *)
From Verif Require Import Base ModelSpan ModelAst ModelTable ModelLink ModelElem ModelPath ModelHtml SpecHtml
  ProofTree ProofElem2 ProofHtml ProofHtmlId ProofHtml2 ProofHtml3.
From Verif Require ProofPath.

Section Outcome.
Variable lower lossy : str -> str.
Variable highlight : option str -> list str -> option str.
Variable rel_parse : str -> option uri.
Variable frag_parse : str -> option str.
Variable cfg : html_config.

(** What a link resolves to on the page being rendered; [None] if the page does
    not lie in its wiki. *)
Definition resolution (l : link) : option resolved :=
  match page_within_wiki (hc_home cfg) (hc_paths cfg) with
  | Some src => Some (resolve_link rel_parse frag_parse (hc_paths cfg)
                        (current_wiki (hc_home cfg) (hc_paths cfg)) src l)
  | None => None
  end.
Definition resolves (l : link) : Prop := exists u, resolution l = Some (RsUri u).
Definition highlighted (c : code_block) : Prop :=
  hc_server cfg = true -> highlight (cb_lang c) (cb_lines c) <> None.

Definition outcome {A} (ls : list link) (cs : list code_block) (r : hres A) : Prop :=
  match r with
  | HOk _ => Forall resolves ls /\ Forall highlighted cs
  | HErr (HeLink r) => exists l, In l ls /\ resolution l = Some r /\ r <> RsPanic /\ forall u, r <> RsUri u
  | HErr HeHighlight => exists c, In c cs /\ ~ highlighted c
  | HErr HeTemplate => False
  | HPanic => exists l, In l ls /\ (resolution l = None \/ resolution l = Some RsPanic)
  | HDiverge => False
  end.
Definition O (ls : list link) (cs : list code_block) (m : hm) : Prop := forall st, outcome ls cs (m st).

Lemma O_out s : O [] [] (out s).
Proof. intro st. split; constructor. Qed.
Lemma O_seq l1 l2 c1 c2 a b : O l1 c1 a -> O l2 c2 b -> O (l1 ++ l2) (c1 ++ c2) (a ;; b).
Proof.
  intros A B st. unfold hseq. specialize (A st). destruct (a st) as [[st1 o1]|e| |]; cbn [outcome] in *.
  - specialize (B st1). destruct (b st1) as [[st2 o2]|e| |]; cbn [outcome] in *.
    + destruct A, B. split; apply Forall_app; auto.
    + destruct e; auto; destruct B as (x & I & B); exists x; split; auto; apply in_or_app; auto.
    + destruct B as (x & I & B). exists x. split; auto. apply in_or_app. auto.
    + exact B.
  - destruct e; auto; destruct A as (x & I & A); exists x; split; auto; apply in_or_app; auto.
  - destruct A as (x & I & A). exists x. split; auto. apply in_or_app. auto.
  - exact A.
Qed.
Lemma O_seq0 ls cs a b : O [] [] a -> O ls cs b -> O ls cs (a ;; b).
Proof. apply (O_seq [] ls [] cs). Qed.
Lemma O_seq1 ls cs a b : O ls cs a -> O [] [] b -> O ls cs (a ;; b).
Proof. intros A B. rewrite <- (app_nil_r ls), <- (app_nil_r cs). now apply O_seq. Qed.
Lemma O_each {A} (fl : A -> list link) (fc : A -> list code_block) f l :
  (forall x, In x l -> O (fl x) (fc x) (f x)) -> O (flat_map fl l) (flat_map fc l) (each f l).
Proof.
  induction l as [|x l IH]; intro H; [apply O_out|]. rewrite each_cons. cbn [flat_map].
  apply O_seq; [apply H; now left | apply IH; intros y Y; apply H; now right].
Qed.
Lemma flat_map_nil {A B} (l : list A) : flat_map (fun _ => @nil B) l = [].
Proof. induction l; auto. Qed.
Lemma O_each_l {A} (fl : A -> list link) f l :
  (forall x, In x l -> O (fl x) [] (f x)) -> O (flat_map fl l) [] (each f l).
Proof. intro H. rewrite <- (flat_map_nil l). now apply O_each. Qed.
Lemma O_each0 {A} f (l : list A) : (forall x, In x l -> O [] [] (f x)) -> O [] [] (each f l).
Proof. intro H. rewrite <- (flat_map_nil l) at 1. now apply O_each_l. Qed.
Lemma O_unique ls cs id k : (forall u, O ls cs (k u)) -> O ls cs (with_unique id k).
Proof.
  intros H st. unfold with_unique. destruct (ensure_unique_total (hs_ids st) id) as (m & u & s & -> & _). apply H.
Qed.
Lemma O_headers ls cs k : (forall m, O ls cs (k m)) -> O ls cs (with_headers k).
Proof. intros H st. apply H. Qed.

Ltac ostep := first [apply O_out | apply O_seq0; [solve [apply O_out]|] | apply O_seq1; [|solve [apply O_out]]].

Lemma O_props p : O [] [] (props_html p).
Proof. destruct p; [|apply O_out]. cbn [props_html]. apply O_each0. intros. apply O_out. Qed.
Lemma O_href l ls k : (forall href, O ls [] (k href)) -> O (l :: ls) [] (with_href rel_parse frag_parse cfg l k).
Proof.
  intros H st. unfold with_href.
  assert (Q : page_within_wiki (hc_home cfg) (hc_paths cfg) = None -> resolution l = None)
    by (unfold resolution; now intros ->).
  assert (Q2 : forall src, page_within_wiki (hc_home cfg) (hc_paths cfg) = Some src ->
     resolution l = Some (resolve_link rel_parse frag_parse (hc_paths cfg)
              (current_wiki (hc_home cfg) (hc_paths cfg)) src l)) by (unfold resolution; now intros ? ->).
  destruct (page_within_wiki _ _) as [src|]; cbn [outcome]; [|exists l; split; [now left | auto]].
  specialize (Q2 src eq_refl).
  destruct (resolve_link _ _ _ _ _ _) as [u|i|n| |] eqn:E; cbn [outcome];
    try (exists l; split; [now left|]; split; [exact Q2 | split; [discriminate | discriminate]]).
  - specialize (H (uri_display u) st). destruct (k (uri_display u) st) as [x|e| |]; cbn [outcome] in *; auto.
    + destruct H as [H1 H2]. split; [|exact H2]. constructor; [now exists u | exact H1].
    + destruct e; auto; destruct H as (x & I & H); exists x; split; auto; now right.
    + destruct H as (x & I & H). exists x. split; auto. now right.
  - exists l. split; [now left|]. right. exact Q2.
Qed.
Lemma O_transclusion d : O [LTransclusion d] [] (transclusion_html lossy rel_parse frag_parse cfg d).
Proof.
  apply O_href. intro href. ostep. apply O_seq0; [destruct (description_or_fallback _ _); apply O_out|].
  apply O_seq0; [apply O_props|]. apply O_out.
Qed.
Lemma O_link l : O (link_links l) [] (link_html lossy rel_parse frag_parse cfg l).
Proof.
  destruct l as [d|i d|n d|dt d|d|d]; try apply O_transclusion; apply O_href; intro href;
    (ostep; apply O_seq0; [apply O_props|]; ostep; ostep;
     unfold description_or_fallback; destruct (ld_desc (link_get_data _)) as [[t|d']|];
     try apply O_out; apply O_transclusion).
Qed.
Lemma O_front id : O [] [] (front_span id).
Proof.
  unfold front_span. apply O_headers. intro m. destruct (max_level m); [|apply O_out].
  apply O_unique. intro u. apply O_out.
Qed.
Lemma O_deco k t ls body : O ls [] body -> O ls [] (deco_html lower k t body).
Proof.
  intro B. destruct k; cbn [deco_html]; try (ostep; ostep; exact B).
  apply O_unique. intro u. apply O_seq0; [apply O_front|]. ostep. ostep. exact B.
Qed.
Lemma O_keyword k : O [] [] (keyword_html k).
Proof. destruct k; apply O_out. Qed.
Lemma O_dcontent c : O (dcontent_links c) [] (dcontent_html lower lossy rel_parse frag_parse cfg c).
Proof.
  induction c as [t|k cs IH|k|l] using dcontent_ind'; cbn [dcontent_links dcontent_html].
  - apply O_out.
  - apply O_deco. apply O_each_l. rewrite Forall_forall in IH. exact IH.
  - apply O_keyword.
  - apply O_link.
Qed.
Lemma O_inline i : O (inline_links i) [] (inline_html lower lossy rel_parse frag_parse cfg i).
Proof.
  destruct i; cbn [inline_links inline_html]; try apply O_out.
  - apply (O_dcontent (DCDeco k cs)).
  - apply O_keyword.
  - apply O_link.
  - apply O_each0. intros t _. unfold tag_html. apply O_unique. intro u. apply O_seq0; [apply O_front | apply O_out].
  - unfold comment_html. destruct (hc_comments cfg); [|apply O_out]. destruct c; [apply O_out|].
    ostep. ostep. ostep. apply O_each0. intros. repeat ostep.
Qed.
Lemma O_container c : O (container_links c) [] (container_html lower lossy rel_parse frag_parse cfg c).
Proof. apply O_each_l. intros x _. apply O_inline. Qed.
Lemma O_lines ls : O [] [] (each (fun l => out (escape_html l) ;; ln) ls).
Proof. apply O_each0. intros. repeat ostep. Qed.
Lemma O_par_lines sep ls : O (flat_map container_links ls) [] (par_lines lower lossy rel_parse frag_parse cfg sep ls).
Proof.
  induction ls as [|l ls IH]; [apply O_out|]. cbn [flat_map].
  destruct ls as [|l2 ls]; [cbn [flat_map]; rewrite app_nil_r; apply O_container|].
  change (par_lines lower lossy rel_parse frag_parse cfg sep (l :: l2 :: ls))
    with (container_html lower lossy rel_parse frag_parse cfg l ;; out sep ;; par_lines lower lossy rel_parse frag_parse cfg sep (l2 :: ls)).
  change (@nil code_block) with (@nil code_block ++ []). apply O_seq; [apply O_container|]. ostep. exact IH.
Qed.
Lemma O_cell tg t r x : O (cell_links (l_val (snd x))) [] (cell_html lower lossy rel_parse frag_parse cfg tg t r x).
Proof.
  unfold cell_html. destruct (l_val (snd x)); try apply O_out. cbn [cell_links].
  assert (S1 : forall n k, O [] [] (span_attr n k)) by (intros n k; unfold span_attr; destruct (1 <? k); apply O_out).
  ostep. apply O_seq0; [apply S1|]. apply O_seq0; [apply S1|]. ostep. apply O_seq1; [apply O_container|].
  repeat ostep.
Qed.
Lemma enumerate_links (f : located cell -> list link) l :
  flat_map (fun x => f (snd x)) (enumerate l) = flat_map f l.
Proof.
  unfold enumerate. generalize 0. induction l as [|x l IH]; intro n; [reflexivity|].
  cbn [length seq combine flat_map snd]. now rewrite IH.
Qed.
Lemma O_row tg t r : O (flat_map (fun x => cell_links (l_val x)) (row t r)) []
  (row_html lower lossy rel_parse frag_parse cfg tg t r).
Proof.
  unfold row_html, row_has_content. destruct (existsb (fun c => is_content (l_val c)) (row t r)) eqn:E.
  - ostep. ostep. apply O_seq1; [|repeat ostep].
    rewrite <- (enumerate_links (fun x => cell_links (l_val x))). apply O_each_l. intros x _. apply O_cell.
  - replace (flat_map (fun x => cell_links (l_val x)) (row t r)) with (@nil link); [apply O_out|].
    induction (row t r) as [|x l IH]; [reflexivity|]. cbn [existsb flat_map] in *.
    apply orb_false_iff in E. destruct E as [E1 E2]. destruct (l_val x); [discriminate| |]; now apply IH.
Qed.
Lemma O_section n tg t rs : O (flat_map (fun r => flat_map (fun x => cell_links (l_val x)) (row t r)) rs) []
  (section_html lower lossy rel_parse frag_parse cfg n tg t rs).
Proof.
  assert (B : O (flat_map (fun r => flat_map (fun x => cell_links (l_val x)) (row t r)) rs) []
                (each (row_html lower lossy rel_parse frag_parse cfg tg t) rs))
    by (apply O_each_l; intros; apply O_row).
  unfold section_html. destruct rs; [apply O_out|]. ostep. ostep. apply O_seq1; [exact B|]. repeat ostep.
Qed.
Lemma O_placeholder p : O [] [] (placeholder_html p).
Proof. intro st. destruct p; cbn; split; constructor. Qed.
Lemma O_code c : O [] [c] (code_html highlight cfg c).
Proof.
  unfold code_html. destruct (hc_server cfg) eqn:E.
  - intro st. destruct (highlight (cb_lang c) (cb_lines c)) eqn:H; cbn [out outcome].
    + split; [constructor|]. constructor; [|constructor]. intros _. congruence.
    + exists c. split; [now left|]. intro X. now apply (X E).
  - intro st. assert (H : O [] []
      (out (bs "<pre>") ;; out (bs "<code")
    ;; match cb_lang c with
       | Some l => out (bs " class=""" ++ l ++ bs """")
       | None => skip
       end
    ;; each (fun kv => out (bs " " ++ fst kv ++ bs "=""" ++ snd kv ++ bs """")) (cb_meta c)
    ;; out (bs ">")
    ;; out (join [b_nl] (map escape_html (cb_lines c)))
    ;; out (bs "</code></pre>"))).
    { ostep. ostep. apply O_seq0; [destruct (cb_lang c); apply O_out|].
      apply O_seq0; [apply O_each0; intros; apply O_out|]. repeat ostep. }
    specialize (H st). match goal with |- outcome _ _ ?x => destruct x as [x'|e| |] end; cbn [outcome] in *.
    + split; [constructor|]. constructor; [|constructor]. intro X. congruence.
    + destruct e; auto; destruct H as (x & I & H); contradiction.
    + destruct H as (x & I & H); contradiction.
    + exact H.
Qed.

Lemma O_header h : O (container_links (h_content h)) [] (header_html lower lossy rel_parse frag_parse cfg h).
Proof.
  unfold header_html. apply O_unique. intro u.
  apply O_seq0; [intro st; cbn; split; constructor|].
  destruct ((h_level h =? 1) && _).
  - ostep. ostep. apply O_seq1; [apply O_container | apply O_out].
  - apply O_headers. intro m. cbv zeta. destruct (str_eqb _ _).
    + ostep. ostep. apply O_seq1; [apply O_container | apply O_out].
    + apply O_unique. intro u'. ostep. ostep. ostep. ostep. apply O_seq1; [apply O_container | apply O_out].
Qed.
Theorem O_block b : O (block_links b) (block_codes b) (block_html lower lossy highlight rel_parse frag_parse cfg b).
Proof.
  apply (block_ind'
    (fun b => O (block_links b) (block_codes b) (block_html lower lossy highlight rel_parse frag_parse cfg b))
    (fun i => O (item_links i) (item_codes i) (item_html lower lossy highlight rel_parse frag_parse cfg i))).
  - intros b' NL. destruct b'; cbn [block_links block_codes block_html].
    + unfold blockquote_html. ostep. ostep. apply O_seq1; [|apply O_out].
      destruct (1 <? length (line_groups lines)); [|apply O_lines]. apply O_each0. intros. repeat ostep.
    + unfold deflist_html. ostep. ostep. apply O_seq1; [|apply O_out]. apply O_each_l. intros x _.
      ostep. change (@nil code_block) with (@nil code_block ++ []). apply O_seq; [apply O_container|].
      ostep. ostep. apply O_each_l. intros y _. ostep. apply O_seq1; [apply O_container|]. repeat ostep.
    + apply O_out.
    + apply O_header.
    + now elim (NL items).
    + unfold math_html. destruct (mb_env m); ostep; ostep; ostep; apply O_lines.
    + unfold paragraph_html. cbv zeta. destruct (is_blank lines); [apply O_par_lines|]. ostep. ostep. apply O_par_lines.
    + apply O_placeholder.
    + apply O_code.
    + unfold table_html. ostep. ostep. rewrite flat_map_app.
      change (@nil code_block) with (@nil code_block ++ []). apply O_seq; [apply O_section|]. ostep. apply O_section.
  - intros items IH. cbn [block_links block_codes block_html]. ostep. ostep. ostep. apply O_each. intros x X.
    rewrite Forall_forall in IH. apply O_seq1; [now apply IH | apply O_out].
  - intros ty suf pos cs todo IH. cbn [item_links item_codes item_html]. ostep. ostep. apply O_each.
    rewrite Forall_forall in IH. exact IH.
Qed.
Theorem page_outcome p : outcome (page_links p) (page_codes p)
  (to_html_string lower lossy highlight rel_parse frag_parse cfg p).
Proof.
  assert (H : O (page_links p) (page_codes p) (page_html lower lossy highlight rel_parse frag_parse cfg p)).
  { apply O_each. intros x _. apply O_seq1; [apply O_block | apply O_out]. }
  specialize (H hst0). unfold to_html_string. destruct (page_html _ _ _ _ _ _ p hst0) as [[st o]|e| |]; exact H.
Qed.
End Outcome.

(** * The text around a header *)

Lemma each_app {A} (f : A -> hm) a b : heq (each f (a ++ b)) (each f a ;; each f b).
Proof.
  induction a as [|x a IH]; [cbn [app]; rewrite each_nil, skip_seq; reflexivity|].
  cbn [app]. rewrite !each_cons, IH, hseq_assoc. reflexivity.
Qed.

Definition head_open (level : nat) (id target : str) : str :=
  bs "<h" ++ dec (N.of_nat level) ++ bs " id=""" ++ id ++ bs """ class=""header""><a href=""#" ++ target ++ bs """>".
Definition head_close (level : nat) : str := bs "</a></h" ++ dec (N.of_nat level) ++ bs ">".

Section Header.
Variable lower lossy : str -> str.
Variable highlight : option str -> list str -> option str.
Variable rel_parse : str -> option uri.
Variable frag_parse : str -> option str.
Variable cfg : html_config.
Hypothesis rel_clean : forall s u, rel_parse s = Some u -> uri_clean u.
Hypothesis frag_clean : forall s f, frag_parse s = Some f -> free attr_markup f.
Hypothesis client_side : hc_server cfg = false.
Notation slug := (normalize_id lower).
Notation render := (to_html_string lower lossy highlight rel_parse frag_parse cfg).

Theorem header_text pre h reg post o :
  let id := slug (container_display (h_content h)) in
  let path := latest_below (h_level h) (history_of slug (page_events pre)) in
  let full := join (bs "-") (path ++ [id]) in
  let seen := page_requests slug pre in
  tame (hc_comments cfg) pre ->
  h_level h <> 1 \/ str_trim (container_display (h_content h)) <> hc_toc cfg ->
  render (pre ++ Loc (BHeader h) reg :: post) = HOk o ->
  exists before s1 s2 body after,
    render pre = HOk before /\ suffix_ok s1 /\ suffix_ok s2 /\
    (~ In id seen -> s1 = []) /\
    (path = [] -> o = before ++ head_open (h_level h) (id ++ s1) (id ++ s1) ++ body
                      ++ head_close (h_level h) ++ after) /\
    (path <> [] -> (~ In full (seen ++ [id]) -> s2 = []) /\
       o = before ++ bs "<div id=""" ++ (full ++ s2) ++ bs """>"
           ++ head_open (h_level h) (id ++ s1) (full ++ s2) ++ body
           ++ head_close (h_level h) ++ bs "</div>" ++ after).
Proof.
  cbv zeta. set (id := slug (container_display (h_content h))).
  intros T NT E. unfold to_html_string in E.
  destruct (page_html _ _ _ _ _ _ _ hst0) as [[st' o']| | |] eqn:E1; try discriminate. injection E as ->.
  unfold page_html in E1. rewrite each_app in E1. apply hseq_ok in E1.
  destruct E1 as (st1 & o1 & o2 & E1 & E2 & ->).
  rewrite each_cons in E2. apply hseq_ok in E2. destruct E2 as (st2 & o3 & o4 & E2 & E3 & ->).
  apply hseq_ok in E2. destruct E2 as (st3 & o5 & o6 & E2 & E4 & ->).
  fold (page_html lower lossy highlight rel_parse frag_parse cfg pre) in E1.
  destruct (R_page lower lossy highlight rel_parse frag_parse cfg rel_clean frag_clean client_side (own_keys pre) pre
              (page_good cfg pre T) hst0 [] hrel_nil _ _ E1) as (ts & us & _ & _ & _ & _ & _ & I1 & _ & H1).
  fold (page_requests slug pre) in I1. fold (history_of slug (page_events pre)) in H1.
  set (hist := history_of slug (page_events pre)) in *.
  assert (EP : render pre = HOk o1) by (unfold to_html_string; now rewrite E1).
  cbn [l_val block_html] in E2. unfold header_html in E2. fold id in E2.
  unfold with_unique at 1 in E2.
  destruct (ensure_unique_total (hs_ids st1) id) as (m1 & u & s1 & U1 & Eu & Sok1). rewrite U1 in E2.
  apply hseq_ok in E2. destruct E2 as (st4 & o7 & o8 & E2 & E5 & ->). unfold insert_header in E2. injection E2 as <- <-.
  replace ((h_level h =? 1) && str_eqb (str_trim (container_display (h_content h))) (hc_toc cfg)) with false in E5.
  2:{ symmetry. apply andb_false_iff. destruct NT as [N|N].
      - left. now apply Nat.eqb_neq.
      - right. apply not_true_is_false. intro X. now apply str_eqb_eq in X. }
  unfold with_headers in E5. cbn [hs_headers] in E5.
  set (st4 := Hst (lvl_set (h_level h) id (hs_headers (set_ids m1 st1))) (hs_ids (set_ids m1 st1))
                  (hs_title (set_ids m1 st1)) (hs_date (set_ids m1 st1)) (hs_template (set_ids m1 st1))) in *.
  assert (H4 : hrel st4 ((h_level h, id) :: hist)).
  { destruct (W_insert (own_keys pre) hist (h_level h) id (set_ids m1 st1) (hrel_ids _ _ _ H1) (slug_attr _ _)
                _ _ eq_refl) as (? & ? & _ & _ & _ & _ & _ & _ & _ & X). exact X. }
  change (lvl_set (h_level h) id (hs_headers (set_ids m1 st1))) with (hs_headers st4) in E5.
  rewrite (complete_id_path st4 _ _ _ H4), latest_below_cons, path_is_id in E5.
  assert (First : ~ In id (page_requests slug pre) -> s1 = []).
  { intro N. destruct (issue_first _ _ _ _ I1 N) as [m' X]. rewrite X in U1. injection U1 as _ Y.
    rewrite Eu in Y. rewrite <- (app_nil_r id) in Y at 1. now apply app_inv_head in Y. }
  destruct (latest_below (h_level h) hist) as [|y path] eqn:L.
  - apply hseq_ok in E5. destruct E5 as (? & q1 & q2 & X1 & E5 & ->). injection X1 as <- <-.
    apply hseq_ok in E5. destruct E5 as (? & q3 & q4 & X1 & E5 & ->). injection X1 as <- <-.
    apply hseq_ok in E5. destruct E5 as (? & body & q6 & X1 & E5 & ->). injection E5 as <- <-.
    exists o1, s1, [], body, (o6 ++ o4).
    split; [exact EP|]. split; [exact Sok1|]. split; [constructor|]. split; [exact First|].
    split; [|intro X; now elim X]. intros _. subst u. unfold head_open, head_close.
    repeat (progress (cbn [app]; rewrite <- ?app_assoc)). reflexivity.
  - unfold with_unique in E5.
    set (full := join (bs "-") ((y :: path) ++ [id])) in *.
    destruct (ensure_unique_total m1 full) as (m2 & v & s2 & U2 & Ev & Sok2).
    match type of E5 with context [ensure_unique ?a ?b] => change (ensure_unique a b) with (ensure_unique m1 full) in E5 end.
    rewrite U2 in E5.
    apply hseq_ok in E5. destruct E5 as (? & q1 & q2 & X1 & E5 & ->). injection X1 as <- <-.
    apply hseq_ok in E5. destruct E5 as (? & q3 & q4 & X1 & E5 & ->). injection E5 as <- <-.
    apply hseq_ok in X1. destruct X1 as (? & r1 & r2 & X1 & X2 & ->). injection X1 as <- <-.
    apply hseq_ok in X2. destruct X2 as (? & r3 & r4 & X1 & X2 & ->). injection X1 as <- <-.
    apply hseq_ok in X2. destruct X2 as (? & body & r6 & X1 & X2 & ->). injection X2 as <- <-.
    exists o1, s1, s2, body, (o6 ++ o4).
    split; [exact EP|]. split; [exact Sok1|]. split; [exact Sok2|]. split; [exact First|].
    split; [discriminate|]. intros _. split.
    + intro N.
      assert (I2 : issue [] (page_requests slug pre ++ [id]) = Some (m1, us ++ [u])).
      { rewrite issue_app. cbn [hs_ids hst0] in I1. rewrite I1. cbn [issue]. now rewrite U1. }
      destruct (issue_first _ _ _ _ I2 N) as [m' X].
      rewrite X in U2. injection U2 as _ Y.
      rewrite Ev in Y. rewrite <- (app_nil_r full) in Y at 1. now apply app_inv_head in Y.
    + subst u v. unfold head_open, head_close. repeat (progress (cbn [app]; rewrite <- ?app_assoc)). reflexivity.
Qed.
End Header.

(** * Templates *)

Lemma replace_same pat : pat <> [] -> forall l k, replace_go pat pat k l = skipn k l.
Proof.
  intro NP. induction l as [|b l IH]; intro k; [now destruct k|].
  cbn [replace_go]. destruct k as [|k]; [|apply IH]. cbn [skipn].
  destruct (starts_with pat (b :: l)) eqn:E; [|now rewrite IH].
  apply starts_with_spec in E. destruct E as [r E]. destruct pat as [|c pat]; [now elim NP|].
  injection E as -> ->. rewrite IH. cbn [length Nat.sub app]. rewrite Nat.sub_0_r, skipn_app, skipn_all, Nat.sub_diag.
  reflexivity.
Qed.
Lemma replace_join pat : pat <> [] -> forall l k, exists pieces,
  pieces <> [] /\ (forall to, replace_go pat to k l = join to pieces) /\ Forall (fun q => ~ contains pat q) pieces.
Proof.
  intro NP.
  assert (Nil : ~ contains pat []).
  { intros (a & b & E). symmetry in E. apply app_eq_nil in E. destruct E as [_ E].
    apply app_eq_nil in E. now destruct E. }
  induction l as [|b l IH]; intro k.
  { exists [[]]. split; [discriminate|]. split; [intro; now destruct k|]. constructor; [exact Nil | constructor]. }
  cbn [replace_go]. destruct k as [|k]; [|apply IH].
  destruct (starts_with pat (b :: l)) eqn:E.
  - destruct (IH (length pat - 1)) as (ps & N & H & F). exists ([] :: ps). split; [discriminate|]. split.
    + intro to. rewrite H. destruct ps; [now elim N | reflexivity].
    + constructor; auto.
  - destruct (IH 0) as (ps & N & H & F). destruct ps as [|q ps]; [now elim N|].
    exists ((b :: q) :: ps). split; [discriminate|]. split; [intro to; rewrite H; destruct ps; reflexivity|].
    inversion F as [|? ? F1 F2]; subst. constructor; auto. intros (a & c & K). destruct a as [|a0 a].
    + cbn [app] in K. pose proof (H pat) as J. rewrite replace_same in J by exact NP. cbn [skipn] in J.
      assert (X : exists r, b :: l = (b :: q) ++ r).
      { rewrite J. destruct ps as [|q2 ps]; [exists []; now rewrite app_nil_r | eexists; reflexivity]. }
      destruct X as [r X]. rewrite X, K, <- app_assoc in E.
      assert (starts_with pat (pat ++ c ++ r) = true) by (apply starts_with_spec; eauto). congruence.
    + injection K as -> ->. apply F1. now exists a, c.
Qed.

Definition at_i (vals : list str) (i : nat) (p : piece) : str :=
  match p with PLit s => s | PVar j => if j <? i then nth j vals [] else marker j end.
Definition cur (vals : list str) (i : nat) (ps : list piece) : str := flat_map (at_i vals i) ps.

Definition no_name (r : str) : Prop := match r with [] => True | c :: _ => name_byte c = false end.
Lemma marker_start i b r : i < 7 -> starts_with (marker i) (b :: r) = true ->
  b = x25 /\ ~ no_name r.
Proof.
  intros Hi H. apply starts_with_spec in H. destruct H as [q H].
  do 7 (destruct i as [|i]; [injection H as -> ->; split; [reflexivity | discriminate]|]). lia.
Qed.
Lemma copy_ok i v s r : i < 7 -> percent_ok s -> replace_go (marker i) v 0 (s ++ r) = s ++ replace_go (marker i) v 0 r.
Proof.
  intros Hi. induction s as [|b s IH]; intro P; [reflexivity|]. cbn [app replace_go].
  destruct P as [P1 P2]. destruct (starts_with (marker i) (b :: s ++ r)) eqn:E.
  - apply marker_start in E; [|exact Hi]. destruct E as [Eb En]. destruct (P1 Eb) as (c & s' & -> & N).
    elim En. exact N.
  - now rewrite IH.
Qed.
Lemma copy_free i v s r : i < 7 -> ~ In x25 s -> replace_go (marker i) v 0 (s ++ r) = s ++ replace_go (marker i) v 0 r.
Proof.
  intros Hi. induction s as [|b s IH]; intro P; [reflexivity|]. cbn [app replace_go].
  destruct (starts_with (marker i) (b :: s ++ r)) eqn:E.
  - apply marker_start in E; [|exact Hi]. destruct E as [Eb _]. elim P. now left.
  - rewrite IH; [reflexivity|]. intro X. apply P. now right.
Qed.
Lemma copy_other i j v r : i < 7 -> j < 7 -> i <> j -> no_name r ->
  replace_go (marker i) v 0 (marker j ++ r) = marker j ++ replace_go (marker i) v 0 r.
Proof.
  intros Hi Hj Hij Hr.
  assert (M : marker j = x25 :: (nth j var_names [] ++ [x25])) by reflexivity. rewrite M. cbn [app replace_go].
  assert (E : starts_with (marker i) (x25 :: (nth j var_names [] ++ [x25]) ++ r) = false).
  { do 7 (destruct i as [|i]; [do 7 (destruct j as [|j]; [try (now elim Hij); reflexivity|]); lia|]). lia. }
  rewrite E. rewrite <- app_assoc. rewrite copy_free; [|exact Hi|].
  2:{ do 7 (destruct j as [|j]; [cbn; intuition discriminate|]). lia. }
  cbn [app replace_go]. destruct (starts_with (marker i) (x25 :: r)) eqn:E2.
  - apply marker_start in E2; [|exact Hi]. destruct E2 as [_ X]. now elim X.
  - rewrite <- app_assoc. reflexivity.
Qed.
Lemma drop_marker pat v : forall s r, replace_go pat v (length s) (s ++ r) = replace_go pat v 0 r.
Proof.
  induction s as [|b s IH]; intro r; [reflexivity|]. cbn [length app replace_go]. apply IH.
Qed.
Lemma hit i v r : i < 7 -> replace_go (marker i) v 0 (marker i ++ r) = v ++ replace_go (marker i) v 0 r.
Proof.
  intros Hi. assert (M : marker i = x25 :: (nth i var_names [] ++ [x25])) by reflexivity.
  assert (S1 : starts_with (marker i) (marker i ++ r) = true) by (apply starts_with_spec; eauto).
  rewrite M at 2. cbn [app replace_go]. rewrite M in S1 at 2. cbn [app] in S1. rewrite S1. f_equal.
  replace (length (marker i) - 1) with (length (nth i var_names [] ++ [x25])) by (rewrite M; cbn [length]; lia).
  apply drop_marker.
Qed.

Lemma fill_step vals i ps : i < 7 -> (forall j, j < i -> ~ In x25 (nth j vals [])) -> template_ok ps ->
  replace_go (marker i) (nth i vals []) 0 (cur vals i ps) = cur vals (S i) ps.
Proof.
  intros Hi V. induction ps as [|p ps IH]; intro T; [reflexivity|].
  unfold cur. cbn [flat_map]. fold (cur vals i ps) (cur vals (S i) ps).
  destruct p as [s|j]; cbn [template_ok at_i] in *.
  - destruct T as [P T]. now rewrite copy_ok, IH.
  - destruct T as (Hj & T & N). destruct (Nat.lt_trichotomy j i) as [L|[->|L]].
    + assert (j <? i = true) by now apply Nat.ltb_lt. assert (j <? S i = true) by (apply Nat.ltb_lt; lia).
      rewrite H, H0. rewrite copy_free, IH; auto.
    + rewrite Nat.ltb_irrefl. assert (i <? S i = true) by (apply Nat.ltb_lt; lia). rewrite H.
      now rewrite hit, IH.
    + assert (j <? i = false) by (apply Nat.ltb_ge; lia). assert (j <? S i = false) by (apply Nat.ltb_ge; lia).
      rewrite H, H0. rewrite copy_other, IH; auto; [lia|].
      destruct ps as [|[[|b s]|k] ps]; cbn [cur flat_map at_i no_name app].
      * exact I.
      * contradiction.
      * exact N.
      * assert (k <? i = false) by (apply Nat.ltb_ge; lia). rewrite H1. reflexivity.
Qed.
Lemma cur_0 vals ps : cur vals 0 ps = template_text ps.
Proof. unfold cur, template_text. apply flat_map_ext. intros []; reflexivity. Qed.
Lemma cur_7 vals ps : template_ok ps -> cur vals 7 ps = instantiate vals ps.
Proof.
  induction ps as [|p ps IH]; intro T; [reflexivity|]. unfold cur, instantiate. cbn [flat_map].
  fold (cur vals 7 ps) (instantiate vals ps). destruct p as [s|j]; cbn [template_ok at_i] in *.
  - now rewrite IH.
  - destruct T as (Hj & T & _). apply Nat.ltb_lt in Hj. now rewrite Hj, IH.
Qed.
Theorem fill_template vals ps : length vals = 7 -> (forall j, j < 6 -> ~ In x25 (nth j vals [])) -> template_ok ps ->
  fill (template_text ps) (combine (map marker (seq 0 7)) vals) = instantiate vals ps.
Proof.
  intros Hl V T. rewrite <- (cur_0 vals), <- cur_7 by exact T.
  destruct vals as [|v0 [|v1 [|v2 [|v3 [|v4 [|v5 [|v6 [|]]]]]]]]; try discriminate.
  unfold fill. cbn [seq map combine fold_left fst snd]. unfold replace_all.
  set (vs := [v0; v1; v2; v3; v4; v5; v6]) in *.
  change v0 with (nth 0 vs []) at 1. rewrite fill_step; [|lia|intros; lia|exact T].
  change v1 with (nth 1 vs []) at 1. rewrite fill_step; [|lia|intros; apply V; lia|exact T].
  change v2 with (nth 2 vs []) at 1. rewrite fill_step; [|lia|intros; apply V; lia|exact T].
  change v3 with (nth 3 vs []) at 1. rewrite fill_step; [|lia|intros; apply V; lia|exact T].
  change v4 with (nth 4 vs []) at 1. rewrite fill_step; [|lia|intros; apply V; lia|exact T].
  change v5 with (nth 5 vs []) at 1. rewrite fill_step; [|lia|intros; apply V; lia|exact T].
  change v6 with (nth 6 vs []) at 1. rewrite fill_step; [|lia|intros; apply V; lia|exact T].
  reflexivity.
Qed.

(** * The text of a tag *)

Section Tag.
Variable lower lossy : str -> str.
Variable highlight : option str -> list str -> option str.
Variable rel_parse : str -> option uri.
Variable frag_parse : str -> option str.
Variable cfg : html_config.
Hypothesis rel_clean : forall s u, rel_parse s = Some u -> uri_clean u.
Hypothesis frag_clean : forall s f, frag_parse s = Some f -> free attr_markup f.
Hypothesis client_side : hc_server cfg = false.
Notation slug := (normalize_id lower).
Notation render := (to_html_string lower lossy highlight rel_parse frag_parse cfg).

Definition tag_paragraph (t : str) (r1 r2 : region) : located block := Loc (BParagraph [[Loc (ITags [t]) r1]]) r2.
Theorem tag_text pre t r1 r2 post o :
  let hist := history_of slug (page_events pre) in
  let full := join (bs "-") (latest_below (deepest hist + 1) hist ++ [slug t]) in
  let seen := page_requests slug pre in
  tame (hc_comments cfg) pre -> hist <> [] ->
  render (pre ++ tag_paragraph t r1 r2 :: post) = HOk o ->
  exists before s1 s2 after,
    render pre = HOk before /\ suffix_ok s1 /\ suffix_ok s2 /\
    (~ In (slug t) seen -> s1 = []) /\ (~ In full (seen ++ [slug t]) -> s2 = []) /\
    o = before ++ bs "<p><span id=""" ++ (full ++ s2) ++ bs """></span><span class=""tag"" id="""
        ++ (slug t ++ s1) ++ bs """>" ++ slug t ++ bs "</span></p>" ++ after.
Proof.
  cbv zeta. set (id := slug t).
  intros T NH E. unfold to_html_string in E.
  destruct (page_html _ _ _ _ _ _ _ hst0) as [[st' o']| | |] eqn:E1; try discriminate. injection E as ->.
  unfold page_html in E1. rewrite each_app in E1. apply hseq_ok in E1.
  destruct E1 as (st1 & o1 & o2 & E1 & E2 & ->).
  rewrite each_cons in E2. apply hseq_ok in E2. destruct E2 as (st2 & o3 & o4 & E2 & E3 & ->).
  apply hseq_ok in E2. destruct E2 as (st3 & o5 & o6 & E2 & E4 & ->).
  fold (page_html lower lossy highlight rel_parse frag_parse cfg pre) in E1.
  destruct (R_page lower lossy highlight rel_parse frag_parse cfg rel_clean frag_clean client_side (own_keys pre) pre
              (page_good cfg pre T) hst0 [] hrel_nil _ _ E1) as (ts & us & _ & _ & _ & _ & _ & I1 & _ & H1).
  fold (page_requests slug pre) in I1. fold (history_of slug (page_events pre)) in H1.
  set (hist := history_of slug (page_events pre)) in *.
  assert (EP : render pre = HOk o1) by (unfold to_html_string; now rewrite E1).
  change (block_html lower lossy highlight rel_parse frag_parse cfg (l_val (tag_paragraph t r1 r2)))
    with (out (bs "<p>") ;; ((tag_html lower t ;; skip) ;; skip) ;; out (bs "</p>")) in E2.
  apply hseq_ok in E2. destruct E2 as (? & q1 & q2 & X1 & E2 & ->). injection X1 as <- <-.
  apply hseq_ok in E2. destruct E2 as (? & q3 & q4 & E2 & X1 & ->). injection X1 as <- <-.
  apply hseq_ok in E2. destruct E2 as (? & q5 & q6 & E2 & X1 & ->). injection X1 as <- <-.
  apply hseq_ok in E2. destruct E2 as (? & q7 & q8 & E2 & X1 & ->). injection X1 as <- <-.
  unfold tag_html, with_unique in E2. fold id in E2.
  destruct (ensure_unique_total (hs_ids st1) id) as (m1 & u & s1 & U1 & Eu & Sok1). rewrite U1 in E2.
  apply hseq_ok in E2. destruct E2 as (? & q9 & q10 & E2 & X1 & ->). injection X1 as <- <-.
  assert (H4 : hrel (set_ids m1 st1) hist) by now apply hrel_ids.
  unfold front_span, with_headers in E2. 
  assert (ML : max_level (hs_headers (set_ids m1 st1)) = Some (deepest hist)).
  { pose proof (hr_max _ _ H4) as X. destruct hist; [now elim NH | exact X]. }
  rewrite ML, (complete_id_path _ _ _ _ H4) in E2. unfold with_unique in E2.
  set (full := join (bs "-") (latest_below (deepest hist + 1) hist ++ [id])) in *.
  destruct (ensure_unique_total m1 full) as (m2 & v & s2 & U2 & Ev & Sok2).
  match type of E2 with context [ensure_unique ?a ?b] => change (ensure_unique a b) with (ensure_unique m1 full) in E2 end.
  rewrite U2 in E2. injection E2 as <- <-.
  exists o1, s1, s2, (o6 ++ o4).
  split; [exact EP|]. split; [exact Sok1|]. split; [exact Sok2|]. split; [|split].
  - intro N. destruct (issue_first _ _ _ _ I1 N) as [m' X]. rewrite X in U1. injection U1 as _ Y.
    rewrite Eu in Y. rewrite <- (app_nil_r id) in Y at 1. now apply app_inv_head in Y.
  - intro N.
    assert (I2 : issue [] (page_requests slug pre ++ [id]) = Some (m1, us ++ [u])).
    { rewrite issue_app. cbn [hs_ids hst0] in I1. rewrite I1. cbn [issue]. now rewrite U1. }
    destruct (issue_first _ _ _ _ I2 N) as [m' X].
    rewrite X in U2. injection U2 as _ Y.
    rewrite Ev in Y. rewrite <- (app_nil_r full) in Y at 1. now apply app_inv_head in Y.
  - subst u v. repeat (progress (cbn [app]; rewrite <- ?app_assoc)). rewrite ?app_nil_r. reflexivity.
Qed.
End Tag.
