(** Escaped text, placeholders and the final page, anchors in front of bold
    text and tags, the wiki of a page; the stand-in for uriparse is clean. *)
From Verif Require Import Base ModelSpan ModelAst ModelTable ModelLink ModelOracle ModelElem ModelPath ModelHtml SpecHtml
  ProofTree ProofElem2 ProofHtml ProofHtmlId ProofHtml2 ProofHtml3 ProofHtml4.
From Verif Require ProofPath.

(** * Escaped text can be read back *)

Lemma decode_skip s r : decode_go (length s) (s ++ r) = decode_go 0 r.
Proof. induction s as [|b s IH]; [reflexivity|]. exact IH. Qed.
Lemma decode_step b r : decode_go 0 (escape_byte b ++ r) = b :: decode_go 0 r.
Proof. destruct b; reflexivity. Qed.
Theorem decode_escape s : decode (escape_html s) = s.
Proof.
  unfold decode, escape_html. induction s as [|b s IH]; [reflexivity|]. cbn [flat_map].
  rewrite decode_step. now rewrite IH.
Qed.

(** * Placeholders *)

Definition meta (st : hst) : option str * option date * option str := (hs_title st, hs_date st, hs_template st).
Definition meta_step (m : option str * option date * option str) (p : placeholder) : option str * option date * option str :=
  let '(t, d, f) := m in
  match p with
  | PTitle x => (Some x, d, f)
  | PDate x => (t, Some x, f)
  | PTemplate x => (t, d, Some x)
  | _ => m
  end.

Section Meta.
Variable lower lossy : str -> str.
Variable highlight : option str -> list str -> option str.
Variable rel_parse : str -> option uri.
Variable frag_parse : str -> option str.
Variable cfg : html_config.

Definition M (ps : list placeholder) (m : hm) : Prop :=
  forall st st' o, m st = HOk (st', o) -> meta st' = fold_left meta_step ps (meta st).
Lemma M_out s : M [] (out s).
Proof. intros st st' o E. now injection E as <- _. Qed.
Lemma M_fail m : (forall st x, m st <> HOk x) -> M [] m.
Proof. intros H st st' o E. now elim (H st (st', o)). Qed.
Lemma M_seq p1 p2 a b : M p1 a -> M p2 b -> M (p1 ++ p2) (a ;; b).
Proof.
  intros A B st st' o E. apply hseq_ok in E. destruct E as (st1 & o1 & o2 & E1 & E2 & _).
  rewrite fold_left_app, <- (A _ _ _ E1). eapply B; eauto.
Qed.
Lemma M_seq0 ps a b : M [] a -> M ps b -> M ps (a ;; b).
Proof. apply (M_seq [] ps). Qed.
Lemma M_seq1 ps a b : M ps a -> M [] b -> M ps (a ;; b).
Proof. intros A B. rewrite <- (app_nil_r ps). now apply M_seq. Qed.
Lemma M_each {A} (f : A -> list placeholder) g l : (forall x, In x l -> M (f x) (g x)) -> M (flat_map f l) (each g l).
Proof.
  induction l as [|x l IH]; intro H; [apply M_out|]. rewrite each_cons. cbn [flat_map].
  apply M_seq; [apply H; now left | apply IH; intros y Y; apply H; now right].
Qed.
Lemma M_each0 {A} g (l : list A) : (forall x, In x l -> M [] (g x)) -> M [] (each g l).
Proof. intro H. rewrite <- (flat_map_nil l). now apply M_each. Qed.
Lemma M_unique ps id k : (forall u, M ps (k u)) -> M ps (with_unique id k).
Proof.
  intros H st st' o E. unfold with_unique in E. destruct (ensure_unique (hs_ids st) id) as [[m u]|]; [|discriminate].
  apply H in E. exact E.
Qed.
Lemma M_headers ps k : (forall m, M ps (k m)) -> M ps (with_headers k).
Proof. intros H st st' o E. eapply H, E. Qed.
Lemma M_href l k : (forall h, M [] (k h)) -> M [] (with_href rel_parse frag_parse cfg l k).
Proof.
  intros H. unfold with_href. destruct (page_within_wiki _ _); [|apply M_fail; discriminate].
  destruct (resolve_link _ _ _ _ _ _); try (apply M_fail; discriminate). apply H.
Qed.
Ltac mstep := first [apply M_out | apply M_seq0; [solve [apply M_out]|] | apply M_seq1; [|solve [apply M_out]]].
Lemma M_props p : M [] (props_html p).
Proof. destruct p; [|apply M_out]. cbn [props_html]. apply M_each0. intros. apply M_out. Qed.
Lemma M_transclusion d : M [] (transclusion_html lossy rel_parse frag_parse cfg d).
Proof.
  apply M_href. intro href. mstep. apply M_seq0; [destruct (description_or_fallback _ _); apply M_out|].
  apply M_seq0; [apply M_props | apply M_out].
Qed.
Lemma M_link l : M [] (link_html lossy rel_parse frag_parse cfg l).
Proof.
  destruct l as [d|i d|n d|dt d|d|d]; try apply M_transclusion; apply M_href; intro href;
    (mstep; apply M_seq0; [apply M_props|]; mstep; mstep;
     unfold description_or_fallback; destruct (ld_desc (link_get_data _)) as [[t|d']|];
     try apply M_out; apply M_transclusion).
Qed.
Lemma M_front id : M [] (front_span id).
Proof.
  unfold front_span. apply M_headers. intro m. destruct (max_level m); [|apply M_out]. apply M_unique. intro. apply M_out.
Qed.
Lemma M_deco k t body : M [] body -> M [] (deco_html lower k t body).
Proof.
  intro B. destruct k; cbn [deco_html]; try (mstep; mstep; exact B).
  apply M_unique. intro u. apply M_seq0; [apply M_front|]. mstep. mstep. exact B.
Qed.
Lemma M_keyword k : M [] (keyword_html k).
Proof. destruct k; apply M_out. Qed.
Lemma M_dcontent c : M [] (dcontent_html lower lossy rel_parse frag_parse cfg c).
Proof.
  induction c as [t|k cs IH|k|l] using dcontent_ind'; cbn [dcontent_html].
  - apply M_out.
  - apply M_deco. apply M_each0. rewrite Forall_forall in IH. exact IH.
  - apply M_keyword.
  - apply M_link.
Qed.
Lemma M_inline i : M [] (inline_html lower lossy rel_parse frag_parse cfg i).
Proof.
  destruct i; cbn [inline_html]; try apply M_out.
  - apply (M_dcontent (DCDeco k cs)).
  - apply M_keyword.
  - apply M_link.
  - apply M_each0. intros t _. unfold tag_html. apply M_unique. intro u. apply M_seq0; [apply M_front | apply M_out].
  - unfold comment_html. destruct (hc_comments cfg); [|apply M_out]. destruct c; [apply M_out|].
    mstep. mstep. mstep. apply M_each0. intros. repeat mstep.
Qed.
Lemma M_container c : M [] (container_html lower lossy rel_parse frag_parse cfg c).
Proof. apply M_each0. intros x _. apply M_inline. Qed.
Lemma M_lines ls : M [] (each (fun l => out (escape_html l) ;; ln) ls).
Proof. apply M_each0. intros. repeat mstep. Qed.
Lemma M_par_lines sep ls : M [] (par_lines lower lossy rel_parse frag_parse cfg sep ls).
Proof.
  induction ls as [|l ls IH]; [apply M_out|]. destruct ls as [|l2 ls]; [apply M_container|].
  change (par_lines lower lossy rel_parse frag_parse cfg sep (l :: l2 :: ls))
    with (container_html lower lossy rel_parse frag_parse cfg l ;; out sep ;; par_lines lower lossy rel_parse frag_parse cfg sep (l2 :: ls)).
  apply M_seq0; [apply M_container|]. mstep. exact IH.
Qed.
Lemma M_row tg t r : M [] (row_html lower lossy rel_parse frag_parse cfg tg t r).
Proof.
  unfold row_html. destruct (row_has_content t r); [|apply M_out]. mstep. mstep. apply M_seq1; [|repeat mstep].
  apply M_each0. intros x _. unfold cell_html. destruct (l_val (snd x)); try apply M_out.
  assert (S1 : forall n k, M [] (span_attr n k)) by (intros n k; unfold span_attr; destruct (1 <? k); apply M_out).
  mstep. apply M_seq0; [apply S1|]. apply M_seq0; [apply S1|]. mstep. apply M_seq0; [apply M_container|]. repeat mstep.
Qed.
Lemma M_section n tg t rs : M [] (section_html lower lossy rel_parse frag_parse cfg n tg t rs).
Proof.
  assert (B : M [] (each (row_html lower lossy rel_parse frag_parse cfg tg t) rs)) by (apply M_each0; intros; apply M_row).
  unfold section_html. destruct rs; [apply M_out|]. mstep. mstep. apply M_seq0; [exact B|]. repeat mstep.
Qed.
Lemma M_header h : M [] (header_html lower lossy rel_parse frag_parse cfg h).
Proof.
  unfold header_html. apply M_unique. intro u. apply M_seq0; [intros st st' o E; now injection E as <- _|].
  destruct ((h_level h =? 1) && _).
  - mstep. mstep. apply M_seq0; [apply M_container | apply M_out].
  - apply M_headers. intro m. cbv zeta. destruct (str_eqb _ _).
    + mstep. mstep. apply M_seq0; [apply M_container | apply M_out].
    + apply M_unique. intro u'. mstep. mstep. mstep. mstep. apply M_seq0; [apply M_container | apply M_out].
Qed.
Lemma M_code c : M [] (code_html highlight cfg c).
Proof.
  unfold code_html. destruct (hc_server cfg).
  - destruct (highlight _ _); [apply M_out | apply M_fail; discriminate].
  - mstep. mstep. apply M_seq0; [destruct (cb_lang c); apply M_out|].
    apply M_seq0; [apply M_each0; intros; apply M_out|]. repeat mstep.
Qed.
Theorem M_block b : M (block_placeholders b) (block_html lower lossy highlight rel_parse frag_parse cfg b).
Proof.
  apply (block_ind'
    (fun b => M (block_placeholders b) (block_html lower lossy highlight rel_parse frag_parse cfg b))
    (fun i => M (item_placeholders i) (item_html lower lossy highlight rel_parse frag_parse cfg i))).
  - intros b' NL. destruct b'; cbn [block_placeholders block_html].
    + unfold blockquote_html. mstep. mstep. apply M_seq1; [|apply M_out].
      destruct (1 <? length (line_groups lines)); [|apply M_lines]. apply M_each0. intros. repeat mstep.
    + unfold deflist_html. mstep. mstep. apply M_seq1; [|apply M_out]. apply M_each0. intros x _.
      mstep. apply M_seq0; [apply M_container|].
      mstep. mstep. apply M_each0. intros y _. mstep. apply M_seq0; [apply M_container|]. repeat mstep.
    + apply M_out.
    + apply M_header.
    + now elim (NL items).
    + unfold math_html. destruct (mb_env m); mstep; mstep; mstep; apply M_lines.
    + unfold paragraph_html. cbv zeta. destruct (is_blank lines); [apply M_par_lines|]. mstep. mstep. apply M_par_lines.
    + intros st st' o E. destruct p; injection E as <- _; reflexivity.
    + apply M_code.
    + unfold table_html. mstep. mstep. apply M_seq0; [apply M_section|]. mstep. apply M_section.
  - intros items IH. cbn [block_placeholders block_html]. mstep. mstep. mstep. apply M_each. intros x X.
    rewrite Forall_forall in IH. apply M_seq1; [now apply IH | apply M_out].
  - intros ty suf pos cs todo IH. cbn [item_placeholders item_html]. mstep. mstep. apply M_each.
    rewrite Forall_forall in IH. exact IH.
Qed.
Lemma last_of_fold {B} (f : placeholder -> option B) (get : option str * option date * option str -> option B) :
  (forall m p, get (meta_step m p) = match f p with Some x => Some x | None => get m end) ->
  forall ps m, get (fold_left meta_step ps m) = match last_of f ps with Some x => Some x | None => get m end.
Proof.
  intros H. induction ps as [|p ps IH]; intro m; [reflexivity|]. cbn [fold_left last_of]. rewrite IH, H.
  destruct (last_of f ps); reflexivity.
Qed.
Theorem page_meta p st o : page_html lower lossy highlight rel_parse frag_parse cfg p hst0 = HOk (st, o) ->
  hs_title st = page_title p /\ hs_date st = page_date p /\ hs_template st = page_template p.
Proof.
  assert (H : M (page_placeholders p) (page_html lower lossy highlight rel_parse frag_parse cfg p)).
  { apply M_each. intros x _. apply M_seq1; [apply M_block | apply M_out]. }
  intro E. apply H in E. change (meta hst0) with (@None str, @None date, @None str) in E.
  unfold page_title, page_date, page_template. repeat split.
  - change (hs_title st) with (fst (fst (meta st))). rewrite E.
    rewrite (last_of_fold (fun x => match x with PTitle t => Some t | _ => None end) (fun m => fst (fst m)));
      [now destruct (last_of _ _)|]. now intros [[? ?] ?] [].
  - change (hs_date st) with (snd (fst (meta st))). rewrite E.
    rewrite (last_of_fold (fun x => match x with PDate t => Some t | _ => None end) (fun m => snd (fst m)));
      [now destruct (last_of _ _)|]. now intros [[? ?] ?] [].
  - change (hs_template st) with (snd (meta st)). rewrite E.
    rewrite (last_of_fold (fun x => match x with PTemplate t => Some t | _ => None end) (fun m => snd m));
      [now destruct (last_of _ _)|]. now intros [[? ?] ?] [].
Qed.

(** * The final page *)

Variable read_file : path -> option str.
Variable today : date.
(** The template of a page and the values of its variables. *)
Definition template_of (p : page) : option str :=
  match page_template p with
  | None => Some (hc_template cfg)
  | Some f => read_file (path_join (hc_template_dir cfg) (path_of_str f))
  end.
Definition title_of (p : page) : str :=
  match page_title p with
  | Some t => t
  | None => match file_stem (pc_page (hc_paths cfg)) with Some s => lossy s | None => [] end
  end.
Definition values_of (p : page) (within : path) (content : str) : list str :=
  [title_of p; date_display (match page_date p with Some d => d | None => today end); root_text (hc_paths cfg);
   path_to_uri_string within; w_css (current_wiki (hc_home cfg) (hc_paths cfg)); bs "utf-8"; content].
Theorem page_filled p o :
  to_html_page lower lossy highlight rel_parse frag_parse read_file today cfg p = HOk o ->
  exists content t within,
    to_html_string lower lossy highlight rel_parse frag_parse cfg p = HOk content /\
    template_of p = Some t /\ page_within_wiki (hc_home cfg) (hc_paths cfg) = Some within /\
    o = fill t (combine (map marker (seq 0 7)) (values_of p within content)).
Proof.
  unfold to_html_page, to_html_string. intro E.
  destruct (page_html _ _ _ _ _ _ p hst0) as [[st content]| | |] eqn:E1; try discriminate.
  apply page_meta in E1. destruct E1 as (T & D & F). rewrite T, D, F in E. clear T D F.
  exists content. unfold template_of.
  destruct (page_template p) as [f|].
  - destruct (read_file (path_join (hc_template_dir cfg) (path_of_str f))) as [t|]; [|discriminate].
    destruct (page_within_wiki _ _) as [q|]; [|discriminate]. injection E as <-. exists t, q. auto.
  - destruct (page_within_wiki _ _) as [q|]; [|discriminate]. injection E as <-. exists (hc_template cfg), q. auto.
Qed.
Lemma values_content p within : exists l, length l = 6 /\ forall content, values_of p within content = l ++ [content].
Proof. eexists [_; _; _; _; _; _]. split; [reflexivity|]. reflexivity. Qed.
End Meta.

Lemma fill_content vals t : length vals = 6 -> exists pieces, pieces <> [] /\
  Forall (fun q => ~ contains (bs "%content%") q) pieces /\
  forall content, fill t (combine (map marker (seq 0 7)) (vals ++ [content])) = join content pieces.
Proof.
  intro Hl. destruct vals as [|v0 [|v1 [|v2 [|v3 [|v4 [|v5 [|]]]]]]]; try discriminate.
  destruct (replace_join (bs "%content%") ltac:(discriminate)
    (fill t (combine (map marker (seq 0 6)) [v0; v1; v2; v3; v4; v5])) 0) as (ps & N & H & F).
  exists ps. split; [exact N|]. split; [exact F|]. intro content. rewrite <- H. reflexivity.
Qed.

(** * Bold text and tags *)

Lemma deepest_stepwise h : stepwise h -> Forall (fun x => 1 <= fst x) h ->
  (exists l t h', h = (l, t) :: h' /\ deepest h' <= l) ->
  latest_below (deepest h + 1) h = enclosing (deepest h + 1) h.
Proof.
  intros S1 F (l & t & h' & -> & D). apply paths_agree; auto. cbn [deepest map list_max fst].
  unfold deepest in *. cbn [map fst list_max fold_right]. fold (list_max (map fst h')). lia.
Qed.

(** * The wiki of a page *)

Lemma current_active home c i w : pc_index c = Some i -> nth_error (pc_wikis c) i = Some w ->
  current_wiki home c = w.
Proof. unfold current_wiki, find_active_wiki, find_wiki_by_index. now intros -> ->. Qed.

(** * The stand-in for uriparse *)

Lemma chars_ok_clean ok s : (forall b, ok b = true -> ~ In b attr_markup) -> chars_ok ok s = true -> free attr_markup s.
Proof.
  intros H. remember (length s) as n eqn:L. assert (L' : length s <= n) by lia. clear L.
  revert s L'. induction n as [|n IH]; intros [|b s] L C; try constructor; cbn [length] in L; try lia.
  - cbn [chars_ok] in C. destruct (beqb b x25) eqn:E.
    + apply beqb_eq in E. subst b. cbn. intuition discriminate.
    + apply andb_true_iff in C. now apply H.
  - cbn [chars_ok] in C. destruct (beqb b x25) eqn:E.
    + destruct s as [|h1 [|h2 s]]; try discriminate. apply andb_true_iff in C. destruct C as [C C3].
      apply andb_true_iff in C. destruct C as [C1 C2].
      assert (X : forall h, is_hex h = true -> ~ In h attr_markup)
        by (intros h Hh K; cbn in K; intuition (subst h; discriminate)).
      constructor; [now apply X|]. constructor; [now apply X|]. apply IH; auto. cbn [length] in L. lia.
    + apply andb_true_iff in C. apply IH; [lia | apply C].
Qed.
Lemma ok_clean ok : ok x3c = false -> ok x3e = false -> ok x22 = false -> forall b, ok b = true -> ~ In b attr_markup.
Proof. intros A B C b H K. cbn in K. intuition (subst b; congruence). Qed.
Lemma rfc_fragment_clean s f : rfc_fragment s = Some f -> free attr_markup f.
Proof.
  unfold rfc_fragment. destruct (chars_ok query_ok s) eqn:E; [|discriminate]. intro H. injection H as <-.
  apply (chars_ok_clean query_ok); [now apply ok_clean | exact E].
Qed.
Lemma parse_scheme_clean l s r : parse_scheme l = (Some s, r) -> free attr_markup s.
Proof.
  unfold parse_scheme. destruct (cut _ l) as [a r']. destruct r' as [|b r']; [discriminate|].
  destruct (beqb b x3a && scheme_ok a) eqn:E; [|discriminate]. intro H. injection H as <- _.
  apply andb_true_iff in E. destruct E as [_ E]. unfold scheme_ok in E. destruct a as [|c a]; [discriminate|].
  apply andb_true_iff in E. destruct E as [_ E]. rewrite forallb_forall in E.
  unfold free. rewrite Forall_forall. intros x I. apply in_map_iff in I. destruct I as (y & <- & I).
  apply E in I. destruct y; try discriminate I; cbn; intuition discriminate.
Qed.
Theorem rfc_clean s u : rfc_uri_parse s = Some u -> uri_clean u.
Proof.
  unfold rfc_uri_parse. destruct (parse_scheme s) as [scheme r0] eqn:E0.
  match goal with |- (let (_, _) := ?x in _) = _ -> _ => destruct x as [auth r1] end.
  destruct (cut _ r1) as [path r2].
  match goal with |- (let '(_, _) := ?x in _) = _ -> _ => destruct x as [query r3] end. cbv zeta.
  set (frag := match r3 with x23 :: r => Some r | _ => None end).
  set (segs := split_on x2f _).
  match goal with |- (if ?c then _ else _) = _ -> _ => destruct c eqn:C; [|discriminate] end.
  intro H. injection H as <-.
  repeat (apply andb_true_iff in C; destruct C as [C ?]).
  assert (Q : forall b, query_ok b = true -> ~ In b attr_markup) by now apply ok_clean.
  assert (P : forall b, pchar_ok b = true -> ~ In b attr_markup) by now apply ok_clean.
  assert (A : forall b, auth_ok b = true -> ~ In b attr_markup) by now apply ok_clean.
  unfold uri_clean, uri_parts. cbn [u_scheme u_authority u_segs u_query u_fragment].
  repeat (apply Forall_app; split).
  - destruct scheme as [x|]; [|constructor]. constructor; [|constructor]. now apply parse_scheme_clean in E0.
  - destruct auth as [x|]; [|constructor]. constructor; [|constructor]. now apply (chars_ok_clean auth_ok).
  - rewrite Forall_forall. intros x I. rewrite forallb_forall in H2. apply (chars_ok_clean pchar_ok); auto.
  - destruct query as [x|]; [|constructor]. constructor; [|constructor]. now apply (chars_ok_clean query_ok).
  - destruct frag as [x|]; [|constructor]. constructor; [|constructor]. now apply (chars_ok_clean query_ok).
Qed.

(** * Stanzas of a blockquote *)

Lemma line_groups_go_stanzas ls : forall g, ~ In [] g ->
  (g = [] -> stanzas ls (line_groups_go [] ls)) /\
  (g <> [] -> stanzas (g ++ ls) (line_groups_go g ls)).
Proof.
  induction ls as [|l ls IH]; intros g G; split; intros E; cbn.
  - constructor.
  - rewrite app_nil_r. destruct g; [congruence|]. now constructor.
  - subst g. destruct l as [|a l].
    + apply stanzas_blank. exact (proj1 (IH [] (fun X => X)) eq_refl).
    + apply (proj2 (IH [a :: l] ltac:(intros [X|[]]; discriminate X))). discriminate.
  - destruct l as [|a l].
    + destruct g as [|x g]; [congruence|]. apply stanzas_more; auto. exact (proj1 (IH [] (fun X => X)) eq_refl).
    + assert (N : ~ In [] (g ++ [a :: l])).
      { rewrite in_app_iff. intros [X|[X|[]]]; [auto | discriminate X]. }
      pose proof (proj2 (IH _ N)) as X. rewrite <- app_assoc in X. apply X.
      destruct g; discriminate.
Qed.

Lemma line_groups_run g : ~ In [] g -> forall h ls, line_groups_go h (g ++ ls) = line_groups_go (h ++ g) ls.
Proof.
  induction g as [|l g IH]; intros N h ls; cbn; [now rewrite app_nil_r|].
  destruct l as [|a l]; [destruct N; now left|].
  rewrite IH by (intros X; apply N; now right). now rewrite <- app_assoc.
Qed.

Lemma line_groups_stanzas ls gs : stanzas ls gs <-> gs = line_groups ls.
Proof.
  split.
  - unfold line_groups. induction 1 as [|ls gs S IH|g A B|g ls gs A B S IH]; cbn; auto.
    + pose proof (line_groups_run g B [] []) as X. rewrite app_nil_r in X. rewrite X. cbn. now destruct g.
    + rewrite line_groups_run by auto. cbn. destruct g; [congruence|]. now rewrite IH.
  - intros ->. exact (proj1 (line_groups_go_stanzas ls [] (fun X => X)) eq_refl).
Qed.
