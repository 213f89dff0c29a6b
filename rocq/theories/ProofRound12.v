(** A check that implies the conditions of SpecRound, for concrete pages. *)
From Verif Require Import Base ModelSpan ModelAst ModelLink ModelElem SpecDoc SpecBlock SpecSpan SpecEq SpecRound ProofBase ProofTree.
From Verif Require ProofRound9 SpecElem.
Local Open Scope nat_scope.

Definition splits (l : str) : list (str * str) := map (fun i => (firstn i l, skipn i l)) (seq 0 (S (length l))).
Lemma splits_in a b : In (a, b) (splits (a ++ b)).
Proof.
  unfold splits. apply in_map_iff. exists (length a). split.
  - f_equal; [now rewrite firstn_app, Nat.sub_diag, firstn_all, app_nil_r|now rewrite skipn_app, Nat.sub_diag, skipn_all].
  - apply in_seq. rewrite app_length. lia.
Qed.
Lemma splits_all (f : str * str -> bool) l a b : forallb f (splits l) = true -> l = a ++ b -> f (a, b) = true.
Proof. intros H ->. eapply forallb_forall in H; [exact H|apply splits_in]. Qed.
Lemma starts_app w r : starts_with w (w ++ r) = true.
Proof. apply starts_with_spec. eauto. Qed.

Definition has (c : byte) (l : str) : bool := existsb (beqb c) l.
Definition lacks (c : byte) (l : str) : bool := negb (has c l).
Lemma lacks_spec c l : lacks c l = true -> ~ In c l.
Proof. unfold lacks, has. rewrite negb_true_iff. intros H I. assert (existsb (beqb c) l = true) by (apply existsb_exists; exists c; split; [exact I|apply beqb_refl]). congruence. Qed.
Definition ne (l : str) : bool := negb (is_nil l).
Lemma ne_spec l : ne l = true -> l <> [].
Proof. now destruct l. Qed.
Definition absent_b (w l : str) : bool := forallb (fun x => negb (starts_with w (snd x))) (splits l).
Lemma absent_spec w l : absent_b w l = true -> absent w l.
Proof. intros H a b E. pose proof (splits_all _ _ _ _ H E) as K. cbn [snd] in K. now rewrite starts_app in K. Qed.
Definition no_cr_end_b (l : str) : bool := match rev l with c :: _ => negb (beqb c b_cr) | [] => true end.
Lemma no_cr_end_spec l : no_cr_end_b l = true -> no_cr_end l.
Proof. unfold no_cr_end_b. intros H x ->. rewrite rev_app_distr in H. cbn in H. discriminate. Qed.
Definition no_lead_b (l : str) : bool := match l with c :: _ => negb (is_space c) | [] => true end.
Lemma no_lead_spec l : no_lead_b l = true -> no_lead l.
Proof. intros H b r ->. now apply negb_true_iff in H. Qed.
Definition fenced_b (f l : str) : bool := lacks b_nl l && no_cr_end_b l && absent_b f l.
Ltac ands := repeat match goal with H : _ && _ = true |- _ => apply andb_true_iff in H; destruct H end.
Lemma fenced_spec f l : fenced_b f l = true -> fenced_line f l.
Proof.
  unfold fenced_b. intro H. ands. split; [now apply lacks_spec|]. split; [now apply no_cr_end_spec|].
  intros (a & b & E & _). eapply absent_spec; eauto.
Qed.
Definition eq_str (a b : str) : bool := if list_eq_dec byte_eq_dec a b then true else false.
Lemma eq_str_spec a b : eq_str a b = true -> a = b.
Proof. unfold eq_str. destruct (list_eq_dec byte_eq_dec a b); congruence. Qed.
Definition uri_dec (a b : uri) : {a = b} + {a <> b}.
Proof.
  pose proof (list_eq_dec byte_eq_dec) as L. assert (O : forall x y : option str, {x = y} + {x <> y}) by (decide equality).
  decide equality; first [apply Bool.bool_dec|apply (list_eq_dec L)].
Defined.
Definition date_dec (a b : date) : {a = b} + {a <> b}.
Proof. repeat decide equality. Defined.

Section Check.
Variable up : str -> option uri.
Variable dp : str -> option date.
Variable lossy : str -> str.
Variable roman : bool -> Z -> str.

Definition ws_before_b (l : str) : bool := match rev l with c :: _ => is_ascii_ws c | [] => true end.
Definition ws_after_b (l : str) : bool := match l with c :: _ => is_ascii_ws c | [] => true end.
Definition after_word_b (l : str) : bool := match rev l with c :: _ => negb (is_ascii_ws c) | [] => false end.
Lemma rev_eq {A} (l : list A) c r : rev l = c :: r -> l = rev r ++ [c].
Proof. intro H. rewrite <- (rev_involutive l), H. reflexivity. Qed.
Lemma ws_before_spec l : ws_before_b l = true -> ws_before l.
Proof.
  unfold ws_before_b. destruct (rev l) as [|c r] eqn:E; intro H.
  - left. rewrite <- (rev_involutive l), E. reflexivity.
  - right. exists (rev r), c. split; [now apply rev_eq|exact H].
Qed.
Lemma ws_after_spec l : ws_after_b l = true -> ws_after l.
Proof. destruct l as [|c r]; intro H; [now left|]. right. exists c, r. auto. Qed.
Lemma after_word_spec l : after_word_b l = true -> after_word l.
Proof.
  unfold after_word_b. destruct (rev l) as [|c r] eqn:E; intro H; [discriminate|]. exists (rev r), c. split; [now apply rev_eq|now apply negb_true_iff].
Qed.
Definition web_b (l : str) : bool := existsb (fun s => starts_with (s ++ bs ":") (map lower l)) web_schemes.
Lemma web_spec l : web_b l = false -> ~ web_head l.
Proof.
  intros H (w & r & -> & I). assert (web_b (w ++ bs ":" ++ r) = true); [|congruence].
  apply existsb_exists. exists (map lower w). split; [exact I|]. rewrite !map_app. change (map lower (bs ":")) with (bs ":"). rewrite app_assoc. apply starts_app.
Qed.
Definition quiet_b (t next : str) : bool :=
  forallb (fun x => is_nil (snd x) || (forallb (fun w => negb (starts_with w (snd x ++ next))) openers && negb (web_b (snd x ++ next)))) (splits t).
Lemma quiet_spec t next : quiet_b t next = true -> quiet t next.
Proof.
  intros H a b E N. pose proof (splits_all _ _ _ _ H E) as K. cbn [snd] in K. destruct b as [|c b]; [congruence|]. cbn [is_nil orb] in K. ands. split.
  - intros w r I Ew. eapply forallb_forall in H0; [|exact I]. rewrite Ew, starts_app in H0. discriminate.
  - apply web_spec. now apply negb_true_iff.
Qed.
Definition colons_b (before t next : str) : bool :=
  forallb (fun x => match snd x with c :: r => negb (beqb c x3a) || after_word_b (before ++ fst x) || ws_after_b (r ++ next) | [] => true end) (splits t).
Lemma colons_spec before t next : colons_b before t next = true -> colons before t next.
Proof.
  intros H a r E. pose proof (splits_all _ _ _ _ H E) as K. cbn [snd fst] in K. change (bs ":" ++ r) with (x3a :: r) in K. cbn in K.
  apply orb_true_iff in K as [K|K]; [left; now apply after_word_spec|right; now apply ws_after_spec].
Qed.
Definition text_b (before t next : str) : bool := ne t && lacks b_nl t && lacks b_cr t && quiet_b t next && colons_b before t next.
Lemma text_spec before t next : text_b before t next = true -> text_fine before t next.
Proof.
  unfold text_b. intro H. ands. split; [now apply ne_spec|]. split; [now apply lacks_spec|]. split; [now apply lacks_spec|].
  split; [now apply quiet_spec|now apply colons_spec].
Qed.
Definition delimited_b (d body : str) : bool :=
  ne body && lacks b_nl body && absent_b (bs "%%") body &&
  forallb (fun x => is_nil (fst x) || (length body <=? length (fst x)) || negb (starts_with d (snd x))) (splits (body ++ d)).
Lemma delimited_spec d body : delimited_b d body = true -> delimited_fine d body.
Proof.
  unfold delimited_b. intro H. ands. split; [now apply ne_spec|]. split; [now apply lacks_spec|]. split; [now apply absent_spec|].
  intros a b E. pose proof (splits_all _ _ _ _ H0 E) as K. cbn [snd fst] in K. rewrite starts_app in K. cbn [negb] in K. rewrite orb_false_r in K.
  apply orb_true_iff in K as [K|K]; [left; now destruct a|]. right. apply Nat.leb_le in K.
  apply Nat.le_lteq in K as [K|K]; [now right|]. left. apply app_eq_app in E as [x [[E1 E2]|[E1 E2]]]; subst.
  - rewrite app_length in K. destruct x; [now rewrite app_nil_r|cbn in K; lia].
  - rewrite app_length in K. destruct x; [now rewrite app_nil_r|cbn in K; lia].
Qed.
Definition is_uri (o : option uri) (u : uri) : bool := match o with Some v => if uri_dec v u then true else false | None => false end.
Lemma is_uri_spec o u : is_uri o u = true -> o = Some u.
Proof. destruct o as [v|]; cbn; [|discriminate]. destruct (uri_dec v u); congruence. Qed.
Definition target_b (d : link_data) : bool :=
  let w := target_src lossy d in
  ne w && lacks b_nl w && lacks x7c w && absent_b (bs "]]") w && absent_b (bs "}}") w &&
  (is_uri (up w) (ld_uri d) || match up w with None => is_uri (up (encode_uri w)) (ld_uri d) | _ => false end).
Definition desc_b (d : option description) : bool :=
  match d with
  | None => true
  | Some (DescText t) => lacks b_nl t && lacks x7c t && negb (starts_with (bs "{{") t)
  | _ => false
  end.
Definition none_b {A} (o : option A) : bool := match o with None => true | _ => false end.
Lemma none_spec {A} (o : option A) : none_b o = true -> o = None.
Proof. now destruct o. Qed.
Definition data_b (d : link_data) : bool := target_b d && desc_b (ld_desc d) && none_b (ld_props d).
Lemma desc_spec d : desc_b d = true -> desc_fine d.
Proof.
  destruct d as [[t|x]|]; cbn; auto; [|discriminate]. intro H. ands. split; [now apply lacks_spec|]. split; [now apply lacks_spec|].
  intros r ->. cbn in *. discriminate.
Qed.
Lemma data_spec d : data_b d = true -> data_fine up lossy d.
Proof.
  unfold data_b, target_b. intro H. ands. split; [|split; [now apply desc_spec|now apply none_spec]].
  unfold target_fine. repeat (split; [first [now apply ne_spec|now apply lacks_spec|now apply absent_spec]|]).
  match goal with H : _ || _ = true |- _ => apply orb_true_iff in H as [K|K] end; [left; now apply is_uri_spec|right].
  destruct (up (target_src lossy d)); [discriminate|]. split; [reflexivity|now apply is_uri_spec].
Qed.
Definition date_b (t : date) : bool := match dp (date_display t) with Some v => if date_dec v t then true else false | None => false end.
Lemma date_spec t : date_b t = true -> date_fine dp t.
Proof. unfold date_b, date_fine. destruct (dp (date_display t)) as [v|]; [|discriminate]. destruct (date_dec v t); congruence. Qed.
Definition link_b (l : link) (next : str) : bool :=
  let body := inside_src lossy l in
  match l with
  | LWiki d => data_b d && delimited_b (bs "]]") body && forallb (fun w => negb (starts_with w body)) [bs "diary:"; bs "wiki"; bs "wn."]
  | LIndexed i d => data_b d && delimited_b (bs "]]") body && (i <=? 4294967295)%N
  | LNamed n d => data_b d && delimited_b (bs "]]") body && ne n && lacks b_nl n && lacks x3a n
  | LDiary t d =>
      date_b t && delimited_b (bs "]]") body && desc_b (ld_desc d) && none_b (ld_props d) &&
      match to_anchor d with
      | Some a => forallb (fun x => lacks b_nl x && lacks x23 x && lacks x7c x) a && is_uri (up (bs "#" ++ join (bs "%23") a)) (ld_uri d)
      | None => is_uri (up []) (ld_uri d)
      end
  | LRaw d =>
      let w := uri_display (ld_uri d) in
      match u_scheme (ld_uri d) with Some s => existsb (eq_str s) web_schemes | None => false end &&
      is_uri (up w) (ld_uri d) && forallb (fun b => negb (is_ascii_ws b)) w &&
      match next with [] => true | c :: _ => is_space c end && none_b (ld_desc d) && none_b (ld_props d)
  | LTransclusion d => data_b d && delimited_b (bs "}}") body
  end.
Lemma forallb_neg {A} (f : A -> bool) l : forallb (fun b => negb (f b)) l = true -> Forall (fun b => f b = false) l.
Proof. intro H. apply Forall_forall. intros x I. eapply forallb_forall in H; eauto. now apply negb_true_iff. Qed.
Lemma link_spec l next : link_b l next = true -> link_fine up dp lossy l next.
Proof.
  destruct l; cbn [link_b link_fine]; intro H; ands.
  - split; [now apply data_spec|]. split; [now apply delimited_spec|]. intros w r I E. eapply forallb_forall in H0; [|exact I].
    rewrite E, starts_app in H0. discriminate.
  - split; [now apply data_spec|]. split; [now apply delimited_spec|]. now apply N.leb_le.
  - split; [now apply data_spec|]. split; [now apply delimited_spec|]. split; [now apply ne_spec|]. split; now apply lacks_spec.
  - split; [now apply date_spec|]. split; [now apply delimited_spec|]. split; [now apply desc_spec|]. split; [now apply none_spec|].
    destruct (to_anchor _); [|now apply is_uri_spec]. ands. split; [|now apply is_uri_spec].
    apply Forall_forall. intros x I. match goal with H : forallb _ _ = true |- _ => eapply forallb_forall in H; [|exact I] end. ands. repeat split; now apply lacks_spec.
  - unfold raw_fine. repeat (split; [|]); try now apply none_spec.
    + destruct (u_scheme _) as [s|]; [|discriminate]. exists s. split; [reflexivity|].
      match goal with H : existsb _ _ = true |- _ => apply existsb_exists in H as (y & I & E) end. apply eq_str_spec in E. now subst.
    + now apply is_uri_spec.
    + now apply forallb_neg.
    + destruct next as [|c r]; [now left|right; eauto].
  - split; [now apply data_spec|now apply delimited_spec].
Qed.
Fixpoint near_b {A} (f : A -> A -> bool) (l : list (located A)) : bool :=
  match l with
  | x :: l' => match l' with y :: _ => f (l_val x) (l_val y) | [] => true end && near_b f l'
  | [] => true
  end.
Lemma near_spec {A} (f : A -> A -> bool) (P : A -> A -> Prop) l : (forall x y, f x y = true -> P x y) -> near_b f l = true -> neighbours P l.
Proof.
  intro HP. induction l as [|x l IH]; cbn [near_b neighbours]; auto. intro H. apply andb_true_iff in H as [H1 H2]. split; [|auto].
  destruct l; auto.
Qed.
Definition beside_b (x y : dcontent) : bool :=
  match x, y with DCText _, DCText _ => false | DCText t, DCLink (LRaw _) => ws_before_b t | _, _ => true end.
Definition beside_ib (x y : inline) : bool :=
  match x, y with IText _, IText _ => false | IText t, ILink (LRaw _) => ws_before_b t | _, _ => true end.
Lemma beside_spec x y : beside_b x y = true -> beside x y.
Proof. destruct x, y; cbn; auto; try discriminate. match goal with l : link |- _ => destruct l end; auto. apply ws_before_spec. Qed.
Lemma beside_ispec x y : beside_ib x y = true -> beside_i x y.
Proof. destruct x, y; cbn; auto; try discriminate. match goal with l : link |- _ => destruct l end; auto. apply ws_before_spec. Qed.
Fixpoint dc_b (before : str) (c : dcontent) (next : str) : bool :=
  match c with
  | DCText t => text_b before t next
  | DCDeco k cs =>
      delimited_b (delim_of k) (dcs_src lossy cs) && near_b beside_b cs &&
      (fix go (before : str) (cs : list (located dcontent)) : bool :=
         match cs with
         | [] => true
         | x :: cs' => dc_b before (l_val x) (dcs_src lossy cs') && go (before ++ dc_src lossy (l_val x)) cs'
         end) (before ++ delim_of k) cs
  | DCKeyword _ => true
  | DCLink l => link_b l next
  end.
Lemma dc_spec c : forall before next, dc_b before c next = true -> dc_fine up dp lossy before c next.
Proof.
  induction c using dcontent_ind'; intros before next B; cbn [dc_b dc_fine] in *; auto.
  - now apply text_spec.
  - apply andb_true_iff in B as [B B3]. apply andb_true_iff in B as [B1 B2]. split; [now apply delimited_spec|]. split; [now apply (near_spec beside_b beside cs beside_spec)|].
    revert B3. generalize (before ++ delim_of k). clear B1 B2. rename H into IH. induction IH as [|x cs Hx _ IHc]; intros b B; [exact I|].
    apply andb_true_iff in B as [B1 B2]. split; [now apply Hx|now apply IHc].
  - now apply link_spec.
Qed.
Definition inline_b (before : str) (i : inline) (next : str) : bool :=
  match i with
  | IText t => text_b before t next
  | IDeco k cs => dc_b before (DCDeco k cs) next
  | IKeyword _ => true
  | ILink l => link_b l next
  | ITags ts =>
      negb (Nat.eqb (length ts) 0) && ws_before_b before && ws_after_b next &&
      forallb (fun t => ne t && lacks x3a t && forallb (fun b => negb (is_ascii_ws b)) t) ts
  | ICode t => delimited_b (bs "`") t
  | IMath t => ne t && lacks b_nl t && absent_b (bs "%%") t && lacks x24 t
  | IComment (CLine t) => is_nil next && lacks b_nl t && eq_str t (bs " " ++ str_trim t)
  | IComment (CMulti _) => false
  end.
Lemma inline_spec before i next : inline_b before i next = true -> inline_fine up dp lossy before i next.
Proof.
  destruct i as [t|k cs|k|l|ts|t|t|[t|ls]]; cbn [inline_b inline_fine]; intro H; ands; try discriminate; try exact I.
  - now apply text_spec.
  - now apply (dc_spec (DCDeco k cs)).
  - now apply link_spec.
  - split; [now destruct ts|]. split; [now apply ws_before_spec|]. split; [now apply ws_after_spec|].
    apply Forall_forall. intros t I. eapply forallb_forall in H0; [|exact I]. ands. split; [now apply ne_spec|]. split; [now apply lacks_spec|now apply forallb_neg].
  - now apply delimited_spec.
  - split; [now apply ne_spec|]. split; [now apply lacks_spec|]. split; [now apply absent_spec|now apply lacks_spec].
  - split; [now destruct next|]. split; [now apply lacks_spec|now apply eq_str_spec].
Qed.
Fixpoint items_b (before : str) (c : container) : bool :=
  match c with
  | [] => true
  | x :: c' => inline_b before (l_val x) (cont_src lossy c') && items_b (before ++ inline_src lossy (l_val x)) c'
  end.
Lemma items_spec c : forall before, items_b before c = true -> items_fine up dp lossy before c.
Proof. induction c as [|x c IH]; intros b H; cbn in *; auto. ands. split; [now apply inline_spec|now apply IH]. Qed.
Definition cont_b (c : container) : bool :=
  negb (Nat.eqb (length c) 0) && items_b [] c && near_b beside_ib c && lacks b_nl (cont_src lossy c) &&
  eq_str (str_trim (cont_src lossy c)) (cont_src lossy c).
Lemma cont_spec c : cont_b c = true -> cont_fine up dp lossy c.
Proof.
  unfold cont_b. intro H. ands. split; [now destruct c|]. split; [now apply items_spec|]. split; [now apply (near_spec _ _ _ beside_ispec)|].
  split; [now apply lacks_spec|now apply eq_str_spec].
Qed.
Definition alnum (b : byte) : bool := is_digit b || is_alpha b.
Definition item_b (l : str) : bool :=
  existsb (fun w => starts_with w l) [bs "- "; bs "* "; bs "# "] ||
  existsb (fun x => forallb alnum (fst x) && (starts_with (bs ". ") (snd x) || starts_with (bs ") ") (snd x))) (splits l).
Lemma alnum_lab o l : label_ok o l -> o <> OPound -> forallb alnum l = true.
Proof.
  intros [_ H] N. apply forallb_forall. intros b I. unfold alnum, is_alpha.
  destruct o; try congruence; [|destruct H as [H _]|destruct H as [H _]| |];
    eapply Forall_forall in H; try exact I; try (rewrite H; now rewrite ?orb_true_r).
  - cbn in H. repeat (destruct H as [<-|H]; [reflexivity|]). destruct H.
  - cbn in H. repeat (destruct H as [<-|H]; [reflexivity|]). destruct H.
Qed.
Lemma item_spec l : item_b l = false -> forall t u pre r, prefix_ok t u pre -> l <> pre ++ r.
Proof.
  unfold item_b. intro H. apply orb_false_iff in H as [H1 H2]. intros t u pre r P ->.
  assert (S : In pre [bs "- "; bs "* "; bs "# "] -> False).
  { intro I. assert (X : existsb (fun w => starts_with w (pre ++ r)) [bs "- "; bs "* "; bs "# "] = true); [|congruence].
    apply existsb_exists. exists pre. split; [exact I|apply starts_app]. }
  destruct t as [o|[| |]]; cbn [prefix_ok] in P; [|apply S; destruct P as [-> _]; cbn; tauto|apply S; destruct P as [-> _]; cbn; tauto|destruct P].
  destruct P as (l & -> & L & Eo).
  assert (D : o = OPound \/ o <> OPound) by (destruct o; (left; reflexivity) || (right; discriminate)).
  destruct D as [->|N].
  - rewrite (proj1 Eo eq_refl) in *. destruct L as [_ ->]. apply S. cbn. tauto.
  - assert (Nu : u <> SufNone) by (intro E; apply N, Eo, E). rewrite <- app_assoc in H2.
    assert (X : existsb (fun x => forallb alnum (fst x) && (starts_with (bs ". ") (snd x) || starts_with (bs ") ") (snd x))) (splits (l ++ suffix_str u ++ r)) = true); [|congruence].
    apply existsb_exists. exists (l, suffix_str u ++ r). split; [apply splits_in|]. cbn [fst snd]. rewrite (alnum_lab o l L N). destruct u; [congruence|reflexivity|reflexivity].
Qed.
Definition plain_b (l : str) : bool :=
  absent_b (bs "::") l && forallb (fun w => negb (starts_with w l)) [bs "="; bs "|"; bs "{{{"; bs "{{$"; bs "> "; bs "----"] &&
  (negb (starts_with (bs "%") l) || starts_with (bs "%%") l) && negb (item_b l).
Lemma plain_spec l : plain_b l = true -> line_plain l.
Proof.
  unfold plain_b. intro H. apply andb_true_iff in H as [H H4]. apply andb_true_iff in H as [H H3]. apply andb_true_iff in H as [H1 H2].
  split; [now apply absent_spec|]. split.
  { intros w r I E. eapply forallb_forall in H2; [|exact I]. rewrite E, starts_app in H2. discriminate. }
  split; [|apply item_spec; now apply negb_true_iff].
  intros r ->. rewrite starts_app in H3. cbn [negb orb] in H3. apply starts_with_spec in H3 as [r' E]. exists r'.
  change (bs "%" ++ r) with (x25 :: r) in E. change (bs "%%" ++ r') with (x25 :: x25 :: r') in E. now injection E.
Qed.
Definition term_b (l : str) : bool :=
  absent_b (bs "::") (l ++ bs ":") && forallb (fun w => negb (starts_with w l)) [bs "="; bs "|"; bs "> "; bs "%%"] && negb (item_b l).
Lemma term_spec l : term_b l = true -> term_plain l.
Proof.
  unfold term_b. intro H. apply andb_true_iff in H as [H H3]. apply andb_true_iff in H as [H1 H2].
  split; [now apply absent_spec|]. split; [|apply item_spec; now apply negb_true_iff].
  intros w r I E. eapply forallb_forall in H2; [|exact I]. rewrite E, starts_app in H2. discriminate.
Qed.
Definition value_b (t : str) : bool := lacks b_nl t && no_cr_end_b t && no_lead_b t && existsb (fun b => negb (is_space b)) (tl t).
Lemma value_spec t : value_b t = true -> value_fine t.
Proof.
  unfold value_b. intro H. ands. split; [now apply lacks_spec|]. split; [now apply no_cr_end_spec|]. split; [now apply no_lead_spec|].
  intro B. apply existsb_exists in H0 as (b & I & E). eapply Forall_forall in B; [|exact I]. rewrite B in E. discriminate.
Qed.
Definition name_b (n : str) : bool :=
  ne n && lacks b_nl n && lacks b_sp n && lacks b_tab n && lacks x25 n &&
  forallb (fun w => negb (starts_with w n)) [bs "title"; bs "nohtml"; bs "template"; bs "date"].
Lemma name_spec n : name_b n = true -> name_fine n.
Proof.
  unfold name_b. intro H. ands. unfold name_fine. split; [now apply ne_spec|]. do 4 (split; [now apply lacks_spec|]).
  intros r w I E. eapply forallb_forall in H0; [|exact I]. rewrite E, starts_app in H0. discriminate.
Qed.
Definition placeholder_b (p : placeholder) : bool :=
  match p with
  | PTitle t | PTemplate t => value_b t
  | PDate d => let t := date_display d in date_b d && lacks b_nl t && no_cr_end_b t && no_lead_b t
  | PNoHtml => true
  | POther n v => name_b n && value_b v
  end.
Lemma placeholder_spec p : placeholder_b p = true -> placeholder_fine dp p.
Proof.
  destruct p; cbn [placeholder_b placeholder_fine]; intro H; ands; auto using value_spec, name_spec.
  split; [now apply date_spec|]. split; [now apply lacks_spec|]. split; [now apply no_cr_end_spec|now apply no_lead_spec].
Qed.
Definition attr_b (kv : str * str) : bool :=
  ne (fst kv) && lacks b_nl (fst kv) && lacks x3d (fst kv) && lacks b_sp (fst kv) && lacks b_tab (fst kv) && lacks b_nl (snd kv) && lacks x22 (snd kv).
Lemma attr_spec kv : attr_b kv = true -> attr_fine kv.
Proof. unfold attr_b. intro H. ands. split; [now apply ne_spec|]. repeat split; now apply lacks_spec. Qed.
Definition lang_b (l : str) : bool := ne l && lacks b_nl l && no_cr_end_b l && lacks b_sp l && lacks x3d l.
Lemma lang_spec l : lang_b l = true -> lang_fine l.
Proof. unfold lang_b. intro H. ands. split; [now apply ne_spec|]. split; [now apply lacks_spec|]. split; [now apply no_cr_end_spec|]. split; now apply lacks_spec. Qed.
Fixpoint nodup_b (l : list str) : bool :=
  match l with [] => true | x :: l' => negb (existsb (eq_str x) l') && nodup_b l' end.
Lemma nodup_spec l : nodup_b l = true -> NoDup l.
Proof.
  induction l as [|x l IH]; cbn [nodup_b]; intro H; [constructor|]. ands. constructor; [|auto]. intro I.
  assert (existsb (eq_str x) l = true); [|rewrite H1 in H; discriminate]. apply existsb_exists. exists x. split; [exact I|].
  unfold eq_str. destruct (list_eq_dec byte_eq_dec x x); congruence.
Qed.
Definition first_b (ls : list str) : bool := forallb (absent_b (bs "::")) (firstn 1 ls).
Lemma first_spec ls : first_b ls = true -> Forall no_colons (firstn 1 ls).
Proof. intro H. apply Forall_forall. intros l I. eapply forallb_forall in H; [|exact I]. now apply absent_spec. Qed.
Lemma forallb_Forall {A} (f : A -> bool) (P : A -> Prop) l : (forall x, f x = true -> P x) -> forallb f l = true -> Forall P l.
Proof. intros HP H. apply Forall_forall. intros x I. eapply forallb_forall in H; [|exact I]. auto. Qed.
Definition label_b (o : ordered_ty) (l : str) : bool :=
  ne l &&
  match o with
  | ONumber => forallb is_digit l
  | OPound => eq_str l (bs "#")
  | OLowerRoman => forallb (fun b => has b roman_lower) l
  | OUpperRoman => forallb (fun b => has b roman_upper) l
  | OLowerAlpha => forallb is_lower l && match l with b :: _ => lacks b roman_lower | [] => true end
  | OUpperAlpha => forallb is_upper l && match l with b :: _ => lacks b roman_upper | [] => true end
  end.
Lemma has_spec c l : has c l = true -> In c l.
Proof. unfold has. intro H. apply existsb_exists in H as (b & I & E). apply beqb_eq in E. now subst. Qed.
Lemma label_spec o l : label_b o l = true -> label_ok o l.
Proof.
  unfold label_b, label_ok. intro H. ands. split; [now apply ne_spec|].
  destruct o; [| | | | |]; ands; try (now apply eq_str_spec).
  - apply Forall_forall. now apply forallb_forall.
  - split; [apply Forall_forall; now apply forallb_forall|]. intros b r ->. now apply lacks_spec.
  - split; [apply Forall_forall; now apply forallb_forall|]. intros b r ->. now apply lacks_spec.
  - eapply forallb_Forall; [|eassumption]. intro. apply has_spec.
  - eapply forallb_Forall; [|eassumption]. intro. apply has_spec.
Qed.
Definition prefix_b (t : item_ty) (s : suffix) (pre : str) : bool :=
  match t with
  | TUnordered UHyphen => eq_str pre (bs "- ") && match s with SufNone => true | _ => false end
  | TUnordered UAsterisk => eq_str pre (bs "* ") && match s with SufNone => true | _ => false end
  | TUnordered (UOther _) => false
  | TOrdered o =>
      existsb (fun x => label_b o (fst x) && eq_str (snd x) (suffix_str s)) (splits pre) &&
      match o, s with OPound, SufNone => true | OPound, _ | _, SufNone => false | _, _ => true end
  end.
Lemma splits_eq l x : In x (splits l) -> l = fst x ++ snd x.
Proof. unfold splits. intro I. apply in_map_iff in I as (i & <- & _). cbn [fst snd]. symmetry. apply firstn_skipn. Qed.
Lemma prefix_spec t s pre : prefix_b t s pre = true -> prefix_ok t s pre.
Proof.
  destruct t as [o|[| |]]; cbn [prefix_b prefix_ok]; intro H; ands; try discriminate.
  - apply existsb_exists in H as (x & I & E). ands. exists (fst x). rewrite <- (eq_str_spec _ _ H1). split; [now apply splits_eq|].
    split; [now apply label_spec|]. destruct o, s; try discriminate H0; split; congruence.
  - split; [now apply eq_str_spec|]. now destruct s.
  - split; [now apply eq_str_spec|]. now destruct s.
Qed.
Definition item_tys : list item_ty :=
  [TUnordered UHyphen; TUnordered UAsterisk; TOrdered ONumber; TOrdered OPound; TOrdered OLowerRoman; TOrdered OUpperRoman;
   TOrdered OLowerAlpha; TOrdered OUpperAlpha].
Definition ty_eqb (a b : item_ty) : bool :=
  match a, b with
  | TOrdered ONumber, TOrdered ONumber | TOrdered OPound, TOrdered OPound | TOrdered OLowerAlpha, TOrdered OLowerAlpha
  | TOrdered OUpperAlpha, TOrdered OUpperAlpha | TOrdered OLowerRoman, TOrdered OLowerRoman
  | TOrdered OUpperRoman, TOrdered OUpperRoman | TUnordered UHyphen, TUnordered UHyphen
  | TUnordered UAsterisk, TUnordered UAsterisk => true
  | _, _ => false
  end.
Lemma ty_eqb_spec a b : ty_eqb a b = true -> a = b.
Proof. destruct a as [[]|[]], b as [[]|[]]; cbn; congruence. Qed.
Definition marks_b (items : list (located list_item)) : bool :=
  match items with
  | [] => false
  | x :: xs =>
      prefix_b (li_ty (l_val x)) (li_suffix (l_val x)) (marker roman (l_val x)) &&
      forallb (fun y => ty_eqb (li_ty (l_val y)) (li_ty (l_val x)) &&
        existsb (fun t => prefix_b t (li_suffix (l_val y)) (marker roman (l_val y))) item_tys) xs
  end.
Lemma marks_spec items : marks_b items = true -> marks_fine roman items.
Proof.
  unfold marks_b, marks_fine. destruct items as [|x xs]; [discriminate|]. intro H. ands. split; [now apply prefix_spec|].
  eapply forallb_Forall; [|eassumption]. cbv beta. intros y E. ands. split; [now apply ty_eqb_spec|].
  apply existsb_exists in H2 as (t & _ & H2). exists t. now apply prefix_spec.
Qed.
Definition opens_b (b : block) : bool := match b with BParagraph _ | BBlockquote _ => true | _ => false end.
Definition inside_b (b : block) : bool :=
  match b with BParagraph _ | BBlockquote _ | BCode _ | BMath _ | BList _ | BDefList _ => true | BTable t => negb (t_centered t) | _ => false end.
Definition turn_b (x y : block) : bool :=
  match x, y with
  | BParagraph _, BParagraph _ | BBlockquote _, BBlockquote _ | BList _, BList _ | BDefList _, BDefList _ | BTable _, BTable _ => false
  | _, _ => true
  end.
Definition todos : list str := map (fun t => todo_str (Some t))
  [TodoIncomplete; TodoPartial1; TodoPartial2; TodoPartial3; TodoComplete; TodoRejected].
Definition todo_b (todo : option todo_status) (ls : list str) : bool :=
  match todo with
  | Some _ => true
  | None => forallb (fun l => forallb (fun w => negb (starts_with w l)) todos) (firstn 1 ls)
  end.
Lemma todo_spec todo ls : todo_b todo ls = true ->
  todo = None -> forall t, Forall (fun l => forall r, l <> todo_str (Some t) ++ r) (firstn 1 ls).
Proof.
  intros H -> t. apply Forall_forall. intros l I r E. unfold todo_b in H. eapply forallb_forall in H; [|exact I].
  eapply (proj1 (forallb_forall _ _)) in H; [|apply in_map_iff; exists t; split; [reflexivity|destruct t; cbn; tauto]].
  rewrite E, starts_app in H. discriminate.
Qed.
Fixpoint nats_b (k : nat) (l : list nat) : bool := match l with [] => true | n :: l' => Nat.eqb n k && nats_b (S k) l' end.
Lemma nats_spec l : forall k, nats_b k l = true -> l = seq k (length l).
Proof. induction l as [|n l IH]; intros k H; cbn in *; [reflexivity|]. ands. apply Nat.eqb_eq in H. subst. f_equal. auto. Qed.
Definition td_b (t : term_defs) : bool :=
  cont_b (l_val (td_term t)) && term_b (cont_src lossy (l_val (td_term t))) && negb (Nat.eqb (length (l_val (td_defs t))) 0) &&
  forallb (fun d => cont_b (l_val d)) (l_val (td_defs t)).
Lemma td_spec t : td_b t = true -> td_fine up dp lossy t.
Proof.
  unfold td_b. intro H. ands. split; [now apply cont_spec|]. split; [now apply term_spec|]. split; [now destruct (l_val (td_defs t))|].
  eapply forallb_Forall; [|eassumption]. intro d. apply cont_spec.
Qed.
Definition space_head (l : str) : bool := match l with b :: _ => is_space b | [] => false end.
Lemma space_head_spec l : space_head l = true -> exists b r, l = b :: r /\ is_space b = true.
Proof. destruct l as [|b r]; [discriminate|]. cbn. eauto. Qed.
Definition mark_b (l : str) : bool :=
  existsb (fun x => forallb is_space (fst x) && (starts_with (bs ">") (snd x) || starts_with (bs "\/") (snd x))) (splits l).
Lemma mark_spec l : mark_b l = false -> forall a m r, blanks a -> In m [bs ">"; bs "\/"] -> l <> a ++ m ++ r.
Proof.
  intros H a m r Ba I ->. assert (mark_b (a ++ m ++ r) = true); [|congruence]. apply existsb_exists. exists (a, m ++ r). split; [apply splits_in|].
  cbn [fst snd]. apply andb_true_iff. split; [apply forallb_forall; exact (proj1 (Forall_forall _ _) Ba)|].
  destruct I as [<-|[<-|[]]]; rewrite starts_app; auto using orb_true_r.
Qed.
Definition cell_b (w : nat) (c : cell) : bool :=
  match c with
  | CContent x =>
      negb (Nat.eqb (length x) 0) && items_b (bs "|") x && near_b beside_ib x && lacks b_nl (cont_src lossy x) && lacks x7c (cont_src lossy x) &&
      Nat.eqb (length (cont_src lossy x)) w && space_head (cont_src lossy x) && space_head (rev (cont_src lossy x)) && negb (mark_b (cont_src lossy x))
  | _ => true
  end.
Lemma cell_spec w c : cell_b w c = true -> cell_fine up dp lossy w c.
Proof.
  destruct c as [x|k|a]; cbn [cell_b cell_fine]; auto. intro H. ands. split; [now destruct x|]. split; [now apply items_spec|].
  split; [now apply (near_spec _ _ _ beside_ispec)|]. split; [now apply lacks_spec|]. split; [now apply lacks_spec|]. split; [now apply Nat.eqb_eq|].
  split; [now apply space_head_spec|]. split; [|now apply mark_spec, negb_true_iff].
  match goal with H : space_head (rev _) = true |- _ => apply space_head_spec in H as (b & r & E & S) end. exists b, (rev r). split; [now apply rev_eq|exact S].
Qed.
Definition same_pos (p q : cellpos) : bool := Nat.eqb (cp_row p) (cp_row q) && Nat.eqb (cp_col p) (cp_col q).
Lemma same_pos_refl p : same_pos p p = true.
Proof. unfold same_pos. now rewrite !Nat.eqb_refl. Qed.
Lemma same_pos_spec p q : same_pos p q = true -> p = q.
Proof. unfold same_pos. intro H. ands. apply Nat.eqb_eq in H, H0. destruct p, q; cbn in *. congruence. Qed.
Fixpoint distinct_b (l : list cellpos) : bool :=
  match l with [] => true | x :: l' => negb (existsb (same_pos x) l') && distinct_b l' end.
Lemma distinct_spec l : distinct_b l = true -> NoDup l.
Proof.
  induction l as [|x l IH]; cbn [distinct_b]; intro H; [constructor|]. ands. constructor; [|auto]. intro I.
  assert (existsb (same_pos x) l = true); [|rewrite H1 in H; discriminate]. apply existsb_exists. exists x. split; [exact I|apply same_pos_refl].
Qed.
Definition align_b (c : cell) : bool := match c with CAlign _ => true | _ => false end.
Definition table_b (t : table) : bool :=
  distinct_b (map fst (t_cells t)) &&
  forallb (fun kv => (cp_row (fst kv) <? t_row_cnt t) && (cp_col (fst kv) <? t_col_cnt t) &&
                     cell_b (col_size lossy t (cp_col (fst kv))) (l_val (snd kv))) (t_cells t) &&
  forallb (fun r => forallb (fun c => existsb (fun kv => same_pos (fst kv) (CellPos r c)) (t_cells t)) (seq 0 (t_col_cnt t))) (seq 0 (t_row_cnt t)) &&
  (0 <? t_row_cnt t) && (0 <? t_col_cnt t) &&
  forallb (fun c => existsb (fun kv => Nat.eqb (cp_col (fst kv)) c && negb (align_b (l_val (snd kv)))) (t_cells t)) (seq 0 (t_col_cnt t)) &&
  first_b (row_lines lossy t).
Lemma table_spec t : table_b t = true -> table_fine up dp lossy t.
Proof.
  unfold table_b. intro H. ands. rename H into K1, H5 into K2, H4 into K3, H3 into K4, H2 into K5, H1 into K6, H0 into K7.
  assert (K : forall kv, In kv (t_cells t) -> cp_row (fst kv) < t_row_cnt t /\ cp_col (fst kv) < t_col_cnt t /\
    cell_fine up dp lossy (col_size lossy t (cp_col (fst kv))) (l_val (snd kv))).
  { intros kv I. eapply forallb_forall in K2; [|exact I]. ands. split; [now apply Nat.ltb_lt|]. split; [now apply Nat.ltb_lt|now apply cell_spec]. }
  split; [now apply distinct_spec|]. split.
  { intros r c [x Hx]. destruct (K _ Hx) as (K8 & K9 & _). auto. }
  split.
  { intros r c Hr Hc. eapply forallb_forall in K3; [|apply in_seq; split; [apply Nat.le_0_l|exact Hr]].
    eapply (proj1 (forallb_forall _ _)) in K3; [|apply in_seq; split; [apply Nat.le_0_l|exact Hc]].
    apply existsb_exists in K3 as ([p x] & I & E). apply same_pos_spec in E. cbn in E. subst. now exists x. }
  split; [now apply Nat.ltb_lt|]. split; [now apply Nat.ltb_lt|]. split.
  { intros r c x Hx. apply (K _ Hx). }
  split; [|now apply first_spec].
  intros c Hc. eapply forallb_forall in K6; [|apply in_seq; split; [apply Nat.le_0_l|exact Hc]].
  apply existsb_exists in K6 as ([[r c'] x] & I & E). ands. cbn [fst snd cp_col] in *. apply Nat.eqb_eq in H. subst. exists r, x. split; [exact I|].
  intros a Ea. rewrite Ea in H0. discriminate.
Qed.
Fixpoint block_b (b : block) : bool :=
  match b with
  | BHeader h => (1 <=? h_level h) && (h_level h <=? 6) && cont_b (h_content h)
  | BParagraph ls => negb (Nat.eqb (length ls) 0) && forallb (fun c => cont_b c && plain_b (cont_src lossy c)) ls
  | BBlockquote ls =>
      negb (Nat.eqb (length ls) 0) && forallb (fun l => lacks b_nl l && lacks b_cr l && ne l && eq_str (str_trim l) l) ls &&
      first_b (quote_lines ls)
  | BCode c =>
      nodup_b (map fst (cb_meta c)) && forallb attr_b (cb_meta c) && match cb_lang c with Some l => lang_b l | None => true end &&
      forallb (fenced_b (bs "}}}")) (cb_lines c) && first_b (code_lines c (n_map (cb_meta c)))
  | BMath m =>
      match mb_env m with Some e => ne e && lacks b_nl e && lacks x25 e | None => true end &&
      forallb (fenced_b (bs "}}$")) (mb_lines m) && first_b (math_lines m)
  | BDivider => true
  | BPlaceholder p => placeholder_b p && absent_b (bs "::") (placeholder_line p)
  | BList items =>
      marks_b items && nats_b 0 (map (fun x => li_pos (l_val x)) items) && forallb (fun x => entry_b (l_val x)) items
  | BDefList d => negb (Nat.eqb (length d) 0) && forallb (fun x => td_b (l_val x)) d
  | BTable t => table_b t
  end
with entry_b (i : list_item) : bool :=
  match i with
  | ListItem _ _ _ contents todo =>
      match contents with [] => false | c :: cs => opens_b (l_val c) && forallb (fun x => inside_b (l_val x)) cs end &&
      near_b turn_b contents && todo_b todo (flat_map (fun x => block_lines lossy roman (l_val x)) contents) &&
      forallb (fun x => block_b (l_val x)) contents
  end.
Lemma block_spec b : block_b b = true -> block_fine up dp lossy roman b.
Proof.
  revert b. apply (block_ind' (fun b => block_b b = true -> block_fine up dp lossy roman b)
    (fun i => entry_b i = true -> item_fine up dp lossy roman i)).
  - intros b Hnl. destruct b; cbn [block_b block_fine]; intro H; try (exfalso; exact (Hnl _ eq_refl)); ands; try discriminate; auto.
    + split; [now destruct lines|]. split; [|now apply first_spec].
      eapply forallb_Forall; [|eassumption]. cbv beta. intros l E. ands. split; [split; now apply lacks_spec|]. split; [now apply ne_spec|now apply eq_str_spec].
    + match goal with H : negb (Nat.eqb (length ?d) 0) = true |- _ => split; [now destruct d|] end.
      eapply forallb_Forall; [|eassumption]. intro x. apply td_spec.
    + split; [split; now apply Nat.leb_le|now apply cont_spec].
    + split; [|split; [eapply forallb_Forall; [apply fenced_spec|eassumption]|now apply first_spec]].
      unfold env_fine. destruct (mb_env _); [|exact I]. ands. split; [now apply ne_spec|]. split; now apply lacks_spec.
    + split; [now destruct lines|]. eapply forallb_Forall; [|eassumption]. cbv beta. intros c E. ands. split; [now apply cont_spec|now apply plain_spec].
    + split; [now apply placeholder_spec|now apply absent_spec].
    + split; [now apply nodup_spec|]. split; [eapply forallb_Forall; [apply attr_spec|eassumption]|].
      split; [|split; [eapply forallb_Forall; [apply fenced_spec|eassumption]|now apply first_spec]].
      intros l E. match goal with H : match cb_lang _ with _ => _ end = true |- _ => rewrite E in H; now apply lang_spec end.
    + now apply table_spec.
  - intros items IH H. cbn [block_b block_fine] in *. ands. split; [now apply marks_spec|].
    split; [apply nats_spec in H1; now rewrite map_length in H1|].
    clear H H1. induction IH as [|x l Hx IH IH']; [exact I|]. cbn [forallb] in H0. ands. split; [now apply Hx|now apply IH'].
  - intros ty suf pos cs todo IH H. cbn [entry_b item_fine] in *. ands. split.
    { destruct cs; [discriminate|]. ands. split; [now destruct (l_val l)|]. eapply forallb_Forall; [|eassumption]. cbv beta. intros x E. destruct (l_val x); try discriminate E; try exact I. now apply negb_true_iff. }
    split; [eapply near_spec; [|eassumption]; intros x y E; now destruct x, y|].
    split; [now apply todo_spec|].
    clear H H1 H2. induction IH as [|x l Hx IH IH']; [exact I|]. cbn [forallb] in H0. ands. split; [now apply Hx|now apply IH'].
Qed.
Definition apart_b (x y : block) : bool := match x, y with BBlockquote _, BBlockquote _ => false | _, _ => true end.
Definition page_b (p : page) : bool := forallb (fun b => block_b (l_val b)) p && near_b apart_b p.
Theorem page_checked p : page_b p = true -> page_fine up dp lossy roman p.
Proof.
  unfold page_b. intro H. ands. split; [eapply forallb_Forall; [|eassumption]; intros x; apply block_spec|].
  eapply near_spec; [|eassumption]. intros x y E. destruct x, y; cbn in *; auto; discriminate.
Qed.
End Check.
