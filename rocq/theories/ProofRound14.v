(** Reading back lists and the blocks inside their items. *)
From Verif Require Import Base ModelSpan ModelComb ModelAst ModelTable ModelLink ModelInline ModelBlock ModelElem
  SpecDoc SpecBlock SpecTree SpecSpan SpecEq SpecRound ProofBase ProofBytes ProofContract ProofPrim ProofInline ProofLink ProofText
  ProofBlock ProofFence ProofDefs ProofTable ProofList ProofPage ProofTree ProofClaims2 ProofSpan ProofRound ProofRound2 ProofRound3
  ProofRound4 ProofRound5 ProofRound6 ProofRound7 ProofRound8 ProofRound9 ProofRound13 ProofRound15 ProofRound16.
From Verif Require ProofEq.
From Coq Require Import Permutation.
Local Open Scope nat_scope.

(** * Maps *)

Lemma collect_keyed ps : keyed ps -> Permutation (collect_map ps) ps.
Proof.
  intro N. destruct (collect_map_last ps) as [N' H]. apply NoDup_Permutation.
  - eapply NoDup_map_inv. exact N'.
  - eapply NoDup_map_inv. exact N.
  - intros [k v]. rewrite H. split.
    + intros (a & b & -> & _). apply in_or_app. right. now left.
    + intro Hi. apply in_split in Hi as (a & b & ->). exists a, b. split; auto. unfold keyed in N. rewrite map_app in N. cbn in N.
      apply NoDup_remove_2 in N. intro Hb. apply N. apply in_or_app. now right.
Qed.
Lemma n_map_collect m : keyed m -> n_map (collect_map (n_map m)) = n_map m.
Proof.
  intro N. assert (P : Permutation (n_map m) m) by apply ProofEq.by_key_perm.
  assert (N2 : keyed (n_map m)) by (unfold keyed in *; eapply Permutation_NoDup; [|exact N]; apply Permutation_map, Permutation_sym, P).
  symmetry. apply ProofEq.n_map_iff; auto. apply Permutation_sym. eapply perm_trans; [now apply collect_keyed|exact P].
Qed.

(** The first byte of a list item. *)
Definition item_byte (c : byte) : bool := is_digit c || is_lower c || is_upper c || existsb (beqb c) (bs "#-*").
Lemma prefix_byte t u pre : prefix_ok t u pre -> exists c r, pre = c :: r /\ item_byte c = true.
Proof.
  destruct t as [o|[| |]]; cbn [prefix_ok]; try contradiction.
  - intros (l & -> & [Hl Ho] & _). destruct l as [|c l]; [congruence|]. exists c, (l ++ suffix_str u). split; [reflexivity|].
    unfold item_byte. destruct o.
    + inversion Ho; subst. rewrite H1. reflexivity.
    + injection Ho as -> ->. reflexivity.
    + destruct Ho as [Ho _]. inversion Ho; subst. rewrite H1. now rewrite orb_true_r.
    + destruct Ho as [Ho _]. inversion Ho; subst. rewrite H1. now rewrite !orb_true_r.
    + inversion Ho; subst. cbn in H1. repeat (destruct H1 as [<-|H1]; [reflexivity|]). destruct H1.
    + inversion Ho; subst. cbn in H1. repeat (destruct H1 as [<-|H1]; [reflexivity|]). destruct H1.
  - intros [-> _]. do 2 eexists. split; reflexivity.
  - intros [-> _]. do 2 eexists. split; reflexivity.
Qed.
Lemma no_item c l : item_byte c = false -> forall t u pre r, prefix_ok t u pre -> c :: l <> pre ++ r.
Proof.
  intros N t u pre r Hp E. destruct (prefix_byte _ _ _ Hp) as (x & q & -> & Hx). injection E as <- _. congruence.
Qed.
Lemma prefix_ends t u pre : prefix_ok t u pre -> exists r, pre = r ++ [b_sp] /\ r <> [] /\ ~ In x3a r.
Proof.
  destruct t as [o|[| |]]; cbn [prefix_ok]; try contradiction.
  - intros (l & -> & [Hl Ho] & _).
    assert (N : ~ In x3a l).
    { intro Hi. destruct o; cbn [label_ok] in Ho.
      - eapply Forall_forall in Ho; eauto. discriminate.
      - subst l. destruct Hi as [Hi|[]]; discriminate.
      - destruct Ho as [Ho _]. eapply Forall_forall in Ho; eauto. discriminate.
      - destruct Ho as [Ho _]. eapply Forall_forall in Ho; eauto. discriminate.
      - eapply Forall_forall in Ho; eauto. cbn in Ho. intuition discriminate.
      - eapply Forall_forall in Ho; eauto. cbn in Ho. intuition discriminate. }
    destruct u; cbn [suffix_str].
    + exists l. auto.
    + exists (l ++ [x2e]). rewrite <- app_assoc. split; [reflexivity|]. split; [destruct l; discriminate|].
      intro Hi. apply in_app_or in Hi as [Hi|[Hi|[]]]; [auto|discriminate].
    + exists (l ++ [x29]). rewrite <- app_assoc. split; [reflexivity|]. split; [destruct l; discriminate|].
      intro Hi. apply in_app_or in Hi as [Hi|[Hi|[]]]; [auto|discriminate].
  - intros [-> _]. exists (bs "-"). split; [reflexivity|]. split; [discriminate|]. cbn. intuition discriminate.
  - intros [-> _]. exists (bs "*"). split; [reflexivity|]. split; [discriminate|]. cbn. intuition discriminate.
Qed.
Lemma head_not (c : byte) (l w : str) : (exists x t, w = x :: t /\ x <> c) -> forall r, c :: l <> w ++ r.
Proof. intros (x & t & -> & N) r E. injection E as -> _. congruence. Qed.
Ltac other_head := apply head_not; do 2 eexists; split; [reflexivity|discriminate].

Lemma absent_after (a l : str) : (forall c, In c a -> c <> x3a) -> absent (bs "::") l -> absent (bs "::") (a ++ l).
Proof.
  intros N A x y E. apply app_eq_app in E as (m & [[E1 E2]|[E1 E2]]).
  - destruct m as [|c m].
    + apply (A [] y). symmetry. exact E2.
    + cbn in E2. injection E2 as <- _. apply (N x3a); [|reflexivity]. rewrite E1. apply in_or_app. right. now left.
  - exact (A m y E2).
Qed.
Lemma todo_no_colon t c : In c (todo_str t) -> c <> x3a.
Proof. intros H ->. destruct t as [[]|]; cbn in H; intuition discriminate. Qed.
Lemma no_cr_app a l : l <> [] -> no_cr_end l -> no_cr_end (a ++ l).
Proof.
  intros Ne N x E. destruct (exists_last Ne) as (l' & c & ->). rewrite app_assoc in E. apply app_inj_tail in E as [_ ->]. now apply (N l').
Qed.
Lemma ind_ind (a b : str) ls : map (app a) (map (app b) ls) = map (app (a ++ b)) ls.
Proof. rewrite map_map. apply map_ext. intro l. apply app_assoc. Qed.

Lemma line_quote ln k : (forall r, ln <> bs "> " ++ r) -> no_quote (ln ++ b_nl :: k).
Proof.
  intros N r E. symmetry in E. apply nl_free_prefix in E as [r' E]; [now apply (N r')|nonl|right; eauto].
Qed.
Lemma line_item ln k : (forall t u pre r, prefix_ok t u pre -> ln <> pre ++ r) ->
  forall t u pre r, prefix_ok t u pre -> ln ++ b_nl :: k <> pre ++ r.
Proof.
  intros N t u pre r Hp E. symmetry in E. destruct (prefix_head _ _ _ Hp) as (_ & _ & _ & _ & Np).
  apply nl_free_prefix in E as [r' E]; [exact (N t u pre r' Hp E)|exact Np|right; eauto].
Qed.

Section Lists.
Variable up : str -> option uri.
Variable dp : str -> option date.
Variable lossy : str -> str.
Variable roman : bool -> Z -> str.
(** The scheme of a URI is the text before its first colon. *)
Hypothesis Hsch : forall t u s, up t = Some u -> u_scheme u = Some s -> In s web_schemes ->
  exists w r, t = w ++ bs ":" ++ r /\ map lower w = s.
Local Notation cont_src := (cont_src lossy).
Local Notation cont_fine := (cont_fine up dp lossy).
Local Notation block_lines := (block_lines lossy roman).
Local Notation item_lines := (item_lines lossy roman).
Local Notation block_fine := (block_fine up dp lossy roman).
Local Notation item_fine := (item_fine up dp lossy roman).
Local Notation marker := (marker roman).
Local Notation nested := (nested_block_element up dp).

Definition same_block (x b : block) : Prop := forall cu, n_block cu nowhere (n_cont cu nowhere) x = n_block cu nowhere (n_cont cu nowhere) b.
Definition same_blocks (l p : page) : Prop := Forall2 (fun x b => same_block (l_val x) (l_val b)) l p.

Lemma block_got {A} (p : parser (located A)) (f : A -> block) b s n P : got s (p s) n (fun x => P (l_val x)) ->
  (forall x, P x -> same_block (f x) b) -> got s (pmap p (lmap f) s) n (fun x => same_block (l_val x) b).
Proof. intros H K. eapply got_pmap; [exact H|]. intros x Hx. destruct x. cbn in *. auto. Qed.
Lemma same_conts xs ys cu : Forall2 same_cont xs ys -> map (n_cont cu nowhere) xs = map (n_cont cu nowhere) ys.
Proof. induction 1; cbn [map]; f_equal; auto. Qed.
Lemma same_par xs ys : Forall2 same_cont xs ys -> same_block (BParagraph xs) (BParagraph ys).
Proof. intros H cu. change (BParagraph (map (n_cont cu nowhere) xs) = BParagraph (map (n_cont cu nowhere) ys)). f_equal. exact (same_conts _ _ cu H). Qed.

(** * What a first line rules out *)

Section Line.
Variables (s : span) (ind ln k : str).
Hypotheses (C : ctx s) (E : remaining s = ind ++ ln ++ k) (Bi : blanks ind) (Lk : line_end k) (Nl : no_lead ln).
Lemma first_starts a w r : remaining s = a ++ w ++ r -> blanks a -> (exists c t, w = c :: t /\ is_space c = false) -> no_nl w ->
  exists r', ln = w ++ r'.
Proof.
  intros Er Ba Hw Nw. rewrite E in Er. apply (line_starts ind ln k a w r) in Er as [_ Er]; auto.
Qed.
Lemma first_header : (forall r, ln <> bs "=" ++ r) -> fails (p_header up dp s).
Proof.
  intro N. apply no_header; auto. intros (a & r & Er & Ba). apply (first_starts a (bs "=") r) in Er as [r' Er]; auto.
  - now apply (N r').
  - do 2 eexists. split; reflexivity.
  - nonl.
Qed.
Lemma first_table : (forall r, ln <> bs "|" ++ r) -> fails (p_table up dp s).
Proof.
  intro N. apply no_table; auto. intros (a & r & Er & Ba). apply (first_starts a (bs "|") r) in Er as [r' Er]; auto.
  - now apply (N r').
  - do 2 eexists. split; reflexivity.
  - nonl.
Qed.
Lemma first_code : (forall r, ln <> bs "{{{" ++ r) -> fails (p_code_block s).
Proof.
  intro N. apply (no_code up dp); auto. intros (a & r & Er & Ba). apply (first_starts a (bs "{{{") r) in Er as [r' Er]; auto.
  - now apply (N r').
  - do 2 eexists. split; reflexivity.
  - nonl.
Qed.
Lemma first_math : (forall r, ln <> bs "{{$" ++ r) -> fails (p_math_block s).
Proof.
  intro N. apply (no_math up dp); auto. intros (a & r & Er & Ba). apply (first_starts a (bs "{{$") r) in Er as [r' Er]; auto.
  - now apply (N r').
  - do 2 eexists. split; reflexivity.
  - nonl.
Qed.
Lemma first_arrow : (forall r, ln <> bs "> " ++ r) -> fails (arrow_blockquote s).
Proof.
  intro N. apply no_arrow; auto. intros a r Ba Er. apply (first_starts a (bs "> ") r) in Er as [r' Er]; auto.
  - now apply (N r').
  - do 2 eexists. split; reflexivity.
  - nonl.
Qed.
Lemma first_divider : (forall r, ln <> bs "----" ++ r) -> fails (p_divider s).
Proof.
  intro N. apply (no_divider up dp); auto. intros (r & Er). apply (first_starts [] (bs "----") r) in Er as [r' Er]; auto.
  - now apply (N r').
  - constructor.
  - do 2 eexists. split; reflexivity.
  - nonl.
Qed.
Lemma first_list n : remaining_len s < n -> (forall t u pre r, prefix_ok t u pre -> ln <> pre ++ r) ->
  fails (list_ (nested n) s).
Proof.
  intros Hn N. apply no_list_f; auto. intros a t u pre r Ba Hp Er. destruct (prefix_head _ _ _ Hp) as (c & q & -> & S1 & S2).
  apply first_starts in Er as [r' Er]; auto; [exact (N t u _ r' Hp Er)|eauto].
Qed.
Lemma first_plist : (forall t u pre r, prefix_ok t u pre -> ln <> pre ++ r) -> fails (p_list up dp s).
Proof. intro N. unfold p_list. apply first_list; auto. Qed.
Lemma first_defs : ctxt s [] -> absent (bs "::") ln -> fails (p_definition_list up dp s).
Proof.
  intros B N. apply (no_defs_e up dp s (ind ++ ln) k C (ctxt_edge up dp s (proj1 C) B)); auto.
  - rewrite <- app_assoc. exact E.
  - now apply absent_blanks.
Qed.
End Line.
Lemma first_indented s ln k : ctx s -> remaining s = ln ++ k -> no_lead ln -> ln <> [] -> fails (indented_blockquote s).
Proof.
  intros C E Nl N. apply no_indented; auto. intros a r Ba La Er. rewrite E in Er. destruct a as [|c a]; [cbn in La; lia|].
  destruct ln as [|x l]; [congruence|]. cbn in Er. injection Er as <- _. inversion Ba; subst.
  rewrite (Nl x l) in H1 by reflexivity. discriminate.
Qed.
Lemma no_item_f n s : ctx s -> remaining_len s < n ->
  (forall a t u pre r, blanks a -> prefix_ok t u pre -> remaining s <> a ++ pre ++ r) -> fails (list_item_ (nested n) s).
Proof.
  intros Hc Hn N. pose proof (@G_list_item (any_env up dp (sp_inner s)) n _ (@GP_nested (any_env up dp (sp_inner s)) n) s (ctx_sok up dp s Hc) ltac:(lia)) as G.
  unfold R in G. cbn [e_uri e_date any_env] in G. destruct (list_item_ (nested n) s) as [s' x| | |]; cbn; auto.
  destruct G as [(A1 & A2 & A3 & A4 & A5 & _) (_ & _ & B3 & B4 & _ & _ & _ & _ & _ & pre & Hp & Es)].
  apply starts_with_spec in Es as [r Es]. set (k := fst x) in *. eapply (N _ _ _ _ (r ++ slice (sp_start s') (sp_end s) (sp_inner s)) B3 Hp).
  unfold remaining. rewrite (slice_app (sp_start s) (sp_start s + k) (sp_end s)) by lia. f_equal.
  rewrite (slice_app (sp_start s + k) (sp_start s') (sp_end s)) by lia. cbn [e_inner any_env] in Es. rewrite app_assoc. f_equal. exact Es.
Qed.

(** * The lines of a block *)

Definition whole (l : str) : Prop := no_nl l /\ no_cr_end l.
Lemma whole_last l c : no_nl (l ++ [c]) -> c <> b_cr -> whole (l ++ [c]).
Proof. intros N H. split; auto. intros x E. apply app_inj_tail in E as [_ E]. congruence. Qed.
Lemma attrs_last ps : ps <> [] -> Forall attr_fine ps -> exists r, attrs_text ps = r ++ [x22] /\ no_nl (attrs_text ps).
Proof.
  induction ps as [|p ps IH]; [congruence|]. intros _ F. inversion F as [|? ? (F1 & F2 & F3 & F4 & F5 & F6 & F7) Fs]; subst.
  assert (M : exists r, meta_text p = r ++ [x22] /\ no_nl (meta_text p)).
  { unfold meta_text. exists (fst p ++ bs "=" ++ [x22] ++ snd p). split; [now rewrite <- !app_assoc|].
    rewrite !no_nl_app. repeat split; auto; nonl. }
  destruct M as (r & E & N). destruct ps as [|q ps].
  - exists r. auto.
  - change (attrs_text (p :: q :: ps)) with (meta_text p ++ [b_sp] ++ attrs_text (q :: ps)).
    destruct (IH ltac:(discriminate) Fs) as (r' & E' & N'). exists (meta_text p ++ [b_sp] ++ r').
    split; [now rewrite E', <- !app_assoc|]. rewrite !no_nl_app. repeat split; auto; nonl.
Qed.
Lemma code_first l ps : (forall x, l = Some x -> lang_fine x) -> Forall attr_fine ps -> whole (bs "{{{" ++ code_head l ps).
Proof.
  intros Fl F. destruct ps as [|p ps].
  - destruct l as [l|]; cbn [code_head attrs_text map join].
    + destruct (Fl l eq_refl) as (N1 & N2 & N3 & _). rewrite app_nil_r. split; [apply no_nl_app; split; [nonl|auto]|now apply no_cr_app].
    + change (bs "{{{" ++ []) with (bs "{{" ++ [x7b]). apply whole_last; [nonl|discriminate].
  - destruct (attrs_last (p :: ps) ltac:(discriminate) F) as (r & E & N). destruct l as [l|]; cbn [code_head].
    + destruct (Fl l eq_refl) as (N1 & N2 & _).
      assert (Nn : no_nl (bs "{{{" ++ l ++ [b_sp] ++ attrs_text (p :: ps))) by (rewrite !no_nl_app; repeat split; auto; nonl).
      change (b_sp :: attrs_text (p :: ps)) with ([b_sp] ++ attrs_text (p :: ps)). rewrite E, !app_assoc in *. now apply whole_last.
    + rewrite E in *. rewrite app_assoc. apply whole_last; [|discriminate]. rewrite <- app_assoc, no_nl_app. split; [nonl|exact N].
Qed.
Lemma math_first e : env_fine e -> whole (bs "{{$" ++ env_text e).
Proof.
  intro F. destruct e as [e|]; cbn [env_text].
  - destruct F as (F1 & F2 & F3). rewrite !app_assoc. apply whole_last; [|discriminate]. rewrite <- !app_assoc, !no_nl_app. repeat split; auto; nonl.
  - change (bs "{{$" ++ []) with (bs "{{" ++ [x24]). apply whole_last; [nonl|discriminate].
Qed.
Lemma fenced_whole f h ls : whole h -> whole f -> Forall (fenced_line f) ls -> Forall whole (h :: ls ++ [f]).
Proof.
  intros H1 H2 F. constructor; auto. apply Forall_app. split; [|repeat constructor; apply H2].
  eapply Forall_impl; [|exact F]. intros l (A & B & _). split; auto.
Qed.
Lemma fine_meta m : Forall attr_fine m -> Forall attr_fine (n_map m).
Proof. intro F. eapply Permutation_Forall; [|exact F]. apply Permutation_sym, ProofEq.by_key_perm. Qed.
Lemma code_whole c : block_fine (BCode c) -> Forall whole (code_lines c (n_map (cb_meta c))).
Proof.
  intros (F0 & F1 & F2 & F3 & _). apply fenced_whole; auto.
  - apply code_first; auto. now apply fine_meta.
  - change (bs "}}}") with (bs "}}" ++ [x7d]). apply whole_last; [nonl|discriminate].
Qed.
Lemma math_whole m : block_fine (BMath m) -> Forall whole (math_lines m).
Proof.
  intros (F1 & F2 & _). apply fenced_whole; auto.
  - now apply math_first.
  - change (bs "}}$") with (bs "}}" ++ [x24]). apply whole_last; [nonl|discriminate].
Qed.
Lemma cont_whole c : cont_fine c -> whole (cont_src c).
Proof.
  intros (_ & _ & _ & F1 & F2). split; auto. intros x E. destruct (trimmed_last _ _ _ F2 E) as (_ & _ & N). congruence.
Qed.
Lemma quote_whole l : quote_fine l -> whole (bs "> " ++ l).
Proof.
  intros [F1 F2]. split; [apply no_nl_app; split; [nonl|auto]|]. intros x E.
  assert (Hi : In b_cr (bs "> " ++ l)) by (rewrite E; apply in_or_app; right; now left).
  apply in_app_or in Hi as [Hi|Hi]; [|auto]. cbn in Hi. intuition discriminate.
Qed.

Lemma items_all items : (fix all (l : list (located list_item)) : Prop :=
  match l with [] => True | x :: l' => item_fine (l_val x) /\ all l' end) items -> Forall (fun x => item_fine (l_val x)) items.
Proof. induction items as [|x l IH]; intros H; constructor; [apply H|apply IH, H]. Qed.
Lemma conts_all cs : (fix all (l : list (located block)) : Prop :=
  match l with [] => True | x :: l' => block_fine (l_val x) /\ all l' end) cs -> Forall (fun x => block_fine (l_val x)) cs.
Proof. induction cs as [|x l IH]; intros H; constructor; [apply H|apply IH, H]. Qed.
Lemma list_fine items : block_fine (BList items) -> marks_fine roman items /\
  map (fun x => li_pos (l_val x)) items = seq 0 (length items) /\ Forall (fun x => item_fine (l_val x)) items.
Proof. intros (F1 & F2 & F3). split; [exact F1|]. split; [exact F2|]. now apply items_all. Qed.
Definition inside (cs : list (located block)) : list str := flat_map (fun x => block_lines (l_val x)) cs.
Lemma item_lines_eq ty suf pos cs todo : item_lines (ListItem ty suf pos cs todo) =
  match inside cs with
  | l :: ls => (marker (ListItem ty suf pos cs todo) ++ todo_str todo ++ l) :: map (app (bs "    ")) ls
  | [] => []
  end.
Proof. reflexivity. Qed.
Lemma list_lines_eq items : block_lines (BList items) = flat_map (fun x => item_lines (l_val x)) items.
Proof. reflexivity. Qed.
Lemma item_parts ty suf pos cs todo : item_fine (ListItem ty suf pos cs todo) ->
  exists c cs', cs = c :: cs' /\ opens_item (l_val c) /\ Forall (fun x => in_item (l_val x)) cs' /\ neighbours in_turn cs /\
    (todo = None -> forall t, Forall (fun l => forall r, l <> todo_str (Some t) ++ r) (firstn 1 (inside cs))) /\
    Forall (fun x => block_fine (l_val x)) cs.
Proof.
  intros (F1 & F2 & F3 & F4). destruct cs as [|c cs]; [contradiction|]. destruct F1 as [F1 F1'].
  exists c, cs. repeat (split; [assumption || reflexivity|]). now apply conts_all.
Qed.
Lemma opens_in b : opens_item b -> in_item b.
Proof. now destruct b. Qed.

(** The first line of a block inside an item. *)
Definition head_ok (b : block) (ls : list str) : Prop :=
  exists c r ls', ls = (c :: r) :: ls' /\ is_space c = false /\ c <> b_nl /\ c <> b_cr /\
    match b with BDefList _ => True | _ => absent (bs "::") (c :: r) end /\
    match b with BBlockquote _ => True | _ => forall r', c :: r <> bs "> " ++ r' end /\
    match b with BList _ => True | _ => forall t u pre r', prefix_ok t u pre -> c :: r <> pre ++ r' end /\
    match b with BTable _ => True | _ => forall r', c :: r <> bs "|" ++ r' end.
Lemma open_absent b (P : Prop) : opens_item b -> match b with BDefList _ => True | _ => P end -> P.
Proof. destruct b; cbn; tauto. Qed.
Lemma open_head b : block_fine b -> opens_item b -> head_ok b (block_lines b).
Proof.
  intros F O. destruct b as [ls|d| |h|l|m|ls|p|c|t]; try contradiction O; cbn [SpecRound.block_lines].
  - destruct F as (F0 & _ & F). destruct ls as [|l ls]; [congruence|]. cbn [quote_lines map firstn] in *. inversion F; subst.
    exists x3e. do 2 eexists. split; [reflexivity|]. repeat (split; [reflexivity || discriminate|]). split; [assumption|]. split; [exact I|].
    split; [apply no_item; reflexivity|other_head].
  - destruct F as (F0 & F). destruct ls as [|c cs]; [congruence|]. inversion F as [|? ? [Fc Pc] _]; subst. cbn [map].
    pose proof (cont_ne up dp lossy Hsch c Fc) as Ne. destruct (cont_src c) as [|x q] eqn:Ec; [congruence|].
    destruct (trimmed_head (x :: q) x q) as (T1 & T2 & T3); [rewrite <- Ec; apply Fc|reflexivity|].
    exists x, q. eexists. split; [reflexivity|]. repeat (split; [assumption|]). destruct Pc as (P1 & P2 & _ & P4).
    split; [exact P1|]. split; [intro r'; apply P2; cbn; auto 6|]. split; [exact P4|]. intro r'. apply P2. cbn; auto 6.
Qed.
Lemma item_head it : item_fine it -> exists r ls, item_lines it = (marker it ++ r) :: ls /\ (r <> []) /\ absent (bs "::") r.
Proof.
  intro F. destruct it as [ty suf pos cs todo]. apply item_parts in F as (c & cs' & -> & O & _ & _ & _ & F). inversion F as [|? ? Fc _]; subst.
  destruct (open_head _ Fc O) as (x & r & ls' & E & N1 & N2 & N3 & N4 & _). apply (open_absent _ _ O) in N4. rewrite item_lines_eq. cbn [inside flat_map]. rewrite E. cbn [app].
  exists (todo_str todo ++ x :: r). eexists. split; [reflexivity|]. split; [intro E'; apply app_eq_nil in E' as [_ E']; discriminate|].
  apply absent_after; [|exact N4]. intros y Hy. exact (todo_no_colon _ _ Hy).
Qed.
Lemma marker_head t u m l : prefix_ok t u m -> absent (bs "::") l -> exists c r, m ++ l = c :: r /\
  is_space c = false /\ c <> b_nl /\ c <> b_cr /\ absent (bs "::") (m ++ l) /\ (forall r', m ++ l <> bs "> " ++ r') /\ forall r', m ++ l <> bs "|" ++ r'.
Proof.
  intros Hp A. destruct (prefix_head _ _ _ Hp) as (c & r & E & S1 & S2). destruct (prefix_byte _ _ _ Hp) as (c' & r2 & E2 & Hb).
  rewrite E in E2. injection E2 as <- <-. exists c, (r ++ l). rewrite E. split; [reflexivity|]. split; [exact S1|].
  assert (Hc : item_byte c = true) by exact Hb.
  split; [intros ->; discriminate|]. split; [intros ->; discriminate|]. split.
  - rewrite <- E. apply absent_after; [|exact A]. intros x Hx ->. destruct (prefix_ends _ _ _ Hp) as (q & -> & _ & Nq).
    apply in_app_or in Hx as [Hx|[Hx|[]]]; [auto|discriminate].
  - split; intros r' Er; injection Er as -> _; discriminate.
Qed.
Lemma td_head t : td_fine up dp lossy t -> exists c r ls, td_lines lossy t = (c :: r) :: ls /\ is_space c = false /\ c <> b_nl /\ c <> b_cr /\
  (forall w r', In w [bs "="; bs "|"; bs "> "] -> c :: r <> w ++ r') /\ forall t u pre r', prefix_ok t u pre -> c :: r <> pre ++ r'.
Proof.
  intros (F1 & (_ & P2 & P3) & F3 & _). destruct (cont_head up dp lossy Hsch _ F1) as (c & r & E & N1 & N2 & N3).
  unfold td_lines. destruct (l_val (td_defs t)) as [|d ds]; [congruence|]. cbn [map]. unfold def_line at 1.
  assert (L : forall w r', ~ In x3a w -> cont_src (l_val (td_term t)) ++ bs ":: " ++ cont_src (l_val d) = w ++ r' -> exists r2, cont_src (l_val (td_term t)) = w ++ r2).
  { intros w r' Nw. exact (literal_free _ w r' _ Nw). }
  rewrite E in *. exists c. do 2 eexists. split; [reflexivity|]. repeat (split; [assumption|]). split.
  - intros w r' Hw Ew. apply (L w r') in Ew as [r2 E2].
    + apply (P2 w r2); [cbn in *; tauto|exact E2].
    + cbn in Hw. intros Hi. destruct Hw as [<-|[<-|[<-|[]]]]; cbn in Hi; intuition discriminate.
  - intros ty u pre r' Hp Ew. apply (L pre r') in Ew as [r2 E2]; [exact (P3 ty u pre r2 Hp E2)|].
    intro Hi. destruct (prefix_ends _ _ _ Hp) as (q & -> & _ & Nq). apply in_app_or in Hi as [Hi|[Hi|[]]]; [auto|discriminate].
Qed.
Lemma deflist_lines_eq d : block_lines (BDefList d) = flat_map (fun x => td_lines lossy (l_val x)) d.
Proof. reflexivity. Qed.
Lemma block_head b : block_fine b -> in_item b -> head_ok b (block_lines b).
Proof.
  intros F O. destruct b as [ls|d| |h|items|m|ls|p|c|t]; try contradiction O; try (now apply open_head).
  - rewrite deflist_lines_eq. destruct F as [F0 F]. destruct d as [|x d]; [congruence|]. inversion F as [|? ? F1 _]; subst.
    destruct (td_head _ F1) as (c & r & ls & E & N1 & N2 & N3 & N4 & N5). cbn [flat_map]. rewrite E. cbn [app]. exists c, r. eexists.
    split; [reflexivity|]. repeat (split; [assumption || exact I|]). split; [intro r'; apply N4; cbn; auto|]. split; [exact N5|]. intro r'. apply N4. cbn. auto.
  - rewrite list_lines_eq. apply list_fine in F as (F1 & _ & F). destruct items as [|i items]; [contradiction|]. destruct F1 as [F1 _]. inversion F; subst.
    destruct (item_head (l_val i)) as (r & ls & E & Nr & A); [assumption|]. destruct (marker_head _ _ _ r F1 A) as (c & q & Eq & N1 & N2 & N3 & N4 & N5 & N6).
    cbn [flat_map]. rewrite E, Eq in *. cbn [app]. exists c, q. eexists. split; [reflexivity|]. repeat (split; [assumption || exact I|]). exact N6.
  - destruct F as (_ & _ & F). cbn [SpecRound.block_lines]. unfold math_lines in *. cbn [firstn] in F. inversion F; subst. exists x7b. do 2 eexists. split; [reflexivity|].
    repeat (split; [reflexivity || discriminate|]). split; [assumption|]. split; [other_head|]. split; [apply no_item; reflexivity|other_head].
  - destruct F as (_ & _ & _ & _ & F). cbn [SpecRound.block_lines]. unfold code_lines in *. cbn [firstn] in F. inversion F; subst. exists x7b. do 2 eexists. split; [reflexivity|].
    repeat (split; [reflexivity || discriminate|]). split; [assumption|]. split; [other_head|]. split; [apply no_item; reflexivity|other_head].
  - change (block_lines (BTable t)) with (table_lines lossy t). rewrite (plain_lines lossy t O). destruct (row_lines_head up dp lossy t F) as (r & ls & E & A).
    rewrite E. exists x7c. do 2 eexists. split; [reflexivity|]. repeat (split; [reflexivity || discriminate|]). split; [exact A|]. split; [other_head|].
    split; [apply no_item; reflexivity|exact I].
Qed.

(** Every line is a whole line. *)
Lemma ind_whole a ls : no_nl a -> ~ In b_cr a -> Forall whole ls -> Forall whole (map (app a) ls).
Proof.
  intros Na Ca F. apply Forall_map. eapply Forall_impl; [|exact F]. intros l [H1 H2]. split; [now apply no_nl_app|].
  destruct (list_eq_dec byte_eq_dec l []) as [->|Ne]; [|now apply no_cr_app]. rewrite app_nil_r. intros x ->. apply Ca. apply in_or_app. right. now left.
Qed.
Lemma td_whole t : td_fine up dp lossy t -> Forall whole (td_lines lossy t).
Proof.
  intros (F1 & _ & F3 & F4). unfold td_lines. destruct (l_val (td_defs t)) as [|d ds]; [congruence|]. cbn [map].
  assert (D : forall x, cont_fine (l_val x) -> whole (def_line lossy x)).
  { intros x Fx. destruct (cont_whole _ Fx) as [W1 W2]. split; [apply no_nl_app; split; [nonl|exact W1]|].
    apply no_cr_app; [exact (cont_ne up dp lossy Hsch _ Fx)|exact W2]. }
  inversion F4 as [|? ? Fd Fs]; subst. constructor.
  - destruct (cont_whole _ F1) as [W1 _]. destruct (D d Fd) as [V1 V2]. split; [now apply no_nl_app|]. apply no_cr_app; [discriminate|exact V2].
  - apply Forall_map. eapply Forall_impl; [|exact Fs]. exact D.
Qed.
Lemma block_whole b : block_fine b -> in_item b -> Forall whole (block_lines b).
Proof.
  apply (block_ind' (fun b => block_fine b -> in_item b -> Forall whole (block_lines b))
    (fun i => item_fine i -> (exists t u, prefix_ok t u (marker i)) -> Forall whole (item_lines i))).
  - intros b0 Hnl F O. destruct b0 as [ls|d| |h|items|m|ls|p|c|t]; try contradiction O; cbn [SpecRound.block_lines].
    + apply Forall_map. destruct F as (_ & F & _). eapply Forall_impl; [|exact F]. intros l [H _]. now apply quote_whole.
    + destruct F as [_ F]. clear - F Hsch. induction F as [|x d F1 _ IH]; [constructor|]. cbn [flat_map]. apply Forall_app. split; [exact (td_whole _ F1)|exact IH].
    + now destruct (Hnl items).
    + now apply math_whole.
    + apply Forall_map. destruct F as (_ & F). eapply Forall_impl; [|exact F]. intros l [H _]. now apply cont_whole.
    + now apply code_whole.
    + rewrite (plain_lines lossy t O). exact (row_lines_whole up dp lossy t F).
  - intros items IH F _. apply list_fine in F as (F1 & _ & F). rewrite list_lines_eq.
    assert (M : Forall (fun x => exists t u, prefix_ok t u (marker (l_val x))) items).
    { destruct items as [|x xs]; [constructor|]. destruct F1 as [F1 F2]. constructor; [eauto|]. eapply Forall_impl; [|exact F2].
      cbv beta. intros y (_ & t & H). eauto. }
    clear F1. induction items as [|x xs IHl]; [constructor|]. inversion IH; inversion F; inversion M; subst. cbn [flat_map]. apply Forall_app. auto.
  - intros ty suf pos cs todo IH F (t & u & Hp). apply item_parts in F as (c & cs' & -> & O & Oi & _ & _ & F). inversion F as [|? ? Fc Fs]; subst.
    destruct (open_head _ Fc O) as (x & r & ls' & E & N1 & N2 & N3 & N4 & _).
    assert (W : Forall whole (inside (c :: cs'))).
    { assert (Oa : Forall (fun x => in_item (l_val x)) (c :: cs')) by (constructor; [now apply opens_in|exact Oi]).
      clear - IH F Oa. induction IH as [|y ys Hy _ IHl]; [constructor|]. inversion F; inversion Oa; subst. cbn [inside flat_map]. apply Forall_app. auto. }
    rewrite item_lines_eq. cbn [inside flat_map] in *. rewrite E in *. cbn [app] in *. inversion W as [|? ? [W1 W2] Ws]; subst. constructor.
    + destruct (prefix_head _ _ _ Hp) as (_ & _ & _ & _ & Np).
      split; [rewrite !no_nl_app; repeat split; auto; destruct todo as [[]|]; nonl|]. rewrite app_assoc. apply no_cr_app; [discriminate|exact W2].
    + apply ind_whole; [nonl|cbn; intuition discriminate|exact Ws].
Qed.

(** * Reading the blocks of an item *)

(** A list whose items are indented by [i] ends here. *)
Definition list_stop (i : nat) (k : str) : Prop :=
  k = [] \/ exists a c r, k = a ++ c :: r /\ blanks a /\ length a <= i /\ is_space c = false /\
    forall t u pre r', prefix_ok t u pre -> c :: r <> pre ++ r'.
Definition then_ok (n : nat) (ind : str) (b : block) (k : str) (e : span) : Prop :=
  match b with
  | BParagraph _ => par_end up dp n e
  | BBlockquote _ => quote_stop k
  | BList _ => list_stop (length ind) k
  | BDefList _ => no_defs_here k
  | BTable _ => no_bar k
  | _ => True
  end.
Definition not_par (b : block) : Prop := match b with BParagraph _ => False | _ => True end.
Definition ind_src (ind : str) (ls : list str) : str := nl_lines (map (app ind) ls).
Definition reads (b : block) : Prop := forall n s ind k, sees s (ind_src ind (block_lines b) ++ k) -> ctx s -> lstart s -> blanks ind ->
  remaining_len s < n -> block_fine b -> in_item b -> then_ok n ind b k (mv (length (ind_src ind (block_lines b))) s) ->
  got s (nested (S n) s) (length (ind_src ind (block_lines b))) (fun x => same_block (l_val x) b) /\
  (not_par b -> par_end up dp n s).

Section Ends.
Variables (n : nat) (s : span) (m : nat).
Hypotheses (R1 : fails (p_header up dp s)).
Lemma ends_at_defs P : got s (p_definition_list up dp s) m P -> par_end up dp n s.
Proof.
  intro G. unfold par_end, pline, delimited, preceded. apply fails_bind. unfold continue_paragraph_.
  eapply fails_bind_got; [apply got_pnot; assumption|intros ? _]; rewrite ?mv_0.
  apply fails_bind. eapply fails_pnot. exact G.
Qed.
Hypotheses (R2 : fails (p_definition_list up dp s)).
Lemma ends_at_list P : got s (list_ (nested n) s) m P -> par_end up dp n s.
Proof.
  intro G. unfold par_end, pline, delimited, preceded. apply fails_bind. unfold continue_paragraph_.
  do 2 (eapply fails_bind_got; [apply got_pnot; rewrite ?mv_0; assumption|intros ? _]; rewrite ?mv_0).
  apply fails_bind. eapply fails_pnot. exact G.
Qed.
Hypothesis (R3 : fails (list_ (nested n) s)).
Lemma ends_at_table P : got s (p_table up dp s) m P -> par_end up dp n s.
Proof.
  intro G. unfold par_end, pline, delimited, preceded. apply fails_bind. unfold continue_paragraph_.
  do 3 (eapply fails_bind_got; [apply got_pnot; rewrite ?mv_0; assumption|intros ? _]; rewrite ?mv_0).
  apply fails_bind. eapply fails_pnot. exact G.
Qed.
Hypothesis (R4 : fails (p_table up dp s)).
Lemma ends_at_code P : got s (p_code_block s) m P -> par_end up dp n s.
Proof.
  intro G. unfold par_end, pline, delimited, preceded. apply fails_bind. unfold continue_paragraph_.
  do 4 (eapply fails_bind_got; [apply got_pnot; rewrite ?mv_0; assumption|intros ? _]; rewrite ?mv_0).
  apply fails_bind. eapply fails_pnot. exact G.
Qed.
Hypothesis (R5 : fails (p_code_block s)).
Lemma ends_at_math P : got s (p_math_block s) m P -> par_end up dp n s.
Proof.
  intro G. unfold par_end, pline, delimited, preceded. apply fails_bind. unfold continue_paragraph_.
  do 5 (eapply fails_bind_got; [apply got_pnot; rewrite ?mv_0; assumption|intros ? _]; rewrite ?mv_0).
  apply fails_bind. eapply fails_pnot. exact G.
Qed.
Hypotheses (R6 : fails (p_math_block s)) (R7 : fails (blank_line s)).
Lemma ends_at_arrow P : got s (arrow_blockquote s) m P -> par_end up dp n s.
Proof.
  intro G. unfold par_end, pline, delimited, preceded. apply fails_bind. unfold continue_paragraph_.
  do 7 (eapply fails_bind_got; [apply got_pnot; rewrite ?mv_0; assumption|intros ? _]; rewrite ?mv_0).
  apply fails_bind. eapply fails_pnot. exact G.
Qed.
End Ends.

Ltac skip_with tac := apply alt_skip; [apply fails_pmap; tac|].
Lemma no_nested_table s : fails (p_table up dp s) -> fails (p_nested_table up dp s).
Proof. apply fails_pmap. Qed.

Lemma quote_at l ls n s ind0 ind k : sees s ((ind0 ++ bs "> " ++ l) ++ b_nl :: ind_src ind (quote_lines ls) ++ k) -> ctx s -> ctxt s [] ->
  blanks ind0 -> blanks ind -> remaining_len s < n -> block_fine (BBlockquote (l :: ls)) -> quote_stop k ->
  got s (nested (S n) s) (length (ind0 ++ bs "> " ++ l) + 1 + length (ind_src ind (quote_lines ls)))
    (fun x => same_block (l_val x) (BBlockquote (l :: ls))) /\ par_end up dp n s.
Proof.
  intros H C X B0 B Hn (F0 & F1 & F3) K. assert (F1' : Forall quote_fine (l :: ls)) by (eapply Forall_impl; [|exact F1]; now intros ? [? _]).
  pose proof (arrow_run_ind ind0 ind s l ls k H B0 B F1' K) as G. fold (ind_src ind (quote_lines ls)) in G.
  cbn [quote_lines map firstn] in F3. inversion F3 as [|? ? F _]; subst. unfold no_colons in F. set (ln := bs "> " ++ l) in *.
  set (k1 := ind_src ind (quote_lines ls) ++ k) in *.
  assert (E : remaining s = ind0 ++ ln ++ b_nl :: k1) by (destruct H as [_ H]; rewrite H, <- !app_assoc; reflexivity). assert (Lk : line_end (b_nl :: k1)) by (right; eauto).
  assert (Et : exists t, ln = x3e :: t) by (eexists; reflexivity). destruct Et as [t Et].
  assert (Nl : no_lead ln) by (intros b r Eb; rewrite Et in Eb; injection Eb as <- _; reflexivity).
  assert (R1 : fails (p_header up dp s)) by (apply (first_header s ind0 ln (b_nl :: k1)); try assumption; rewrite Et; other_head).
  assert (R2 : fails (p_definition_list up dp s)) by (apply (first_defs s ind0 ln (b_nl :: k1)); assumption).
  assert (R3 : fails (list_ (nested n) s)) by (apply (first_list s ind0 ln (b_nl :: k1)); try assumption; rewrite Et; apply no_item; reflexivity).
  assert (R4 : fails (p_table up dp s)) by (apply (first_table s ind0 ln (b_nl :: k1)); try assumption; rewrite Et; other_head).
  assert (R5 : fails (p_code_block s)) by (apply (first_code s ind0 ln (b_nl :: k1)); try assumption; rewrite Et; other_head).
  assert (R6 : fails (p_math_block s)) by (apply (first_math s ind0 ln (b_nl :: k1)); try assumption; rewrite Et; other_head).
  split.
  - cbn [nested_block_element]. skip_with ltac:(exact R2). skip_with ltac:(exact R3). skip_with ltac:(exact (no_nested_table s R4)).
    skip_with ltac:(exact R5). skip_with ltac:(exact R6). apply alt_take.
    eapply (block_got _ BBlockquote _ _ _ (fun x => x = l :: ls)); [exact G|]. intros x -> cu. reflexivity.
  - eapply ends_at_arrow; try eassumption. rewrite Et, <- app_assoc in H.
    exact (no_blank_line s ind0 x3e (t ++ b_nl :: k1) H B0 eq_refl ltac:(discriminate) ltac:(discriminate)).
Qed.
Lemma par_at_run c cs n s ind0 ind k : sees s ((ind0 ++ cont_src c) ++ b_nl :: ind_src ind (map cont_src cs) ++ k) -> ctx s -> ctxt s [] ->
  blanks ind0 -> blanks ind -> remaining_len s < n -> block_fine (BParagraph (c :: cs)) ->
  par_end up dp n (mv (length (ind0 ++ cont_src c) + 1 + length (ind_src ind (map cont_src cs))) s) ->
  got s (nested (S n) s) (length (ind0 ++ cont_src c) + 1 + length (ind_src ind (map cont_src cs)))
    (fun x => same_block (l_val x) (BParagraph (c :: cs))).
Proof.
  intros H C X B0 B Hn (F0 & F1) K. inversion F1 as [|? ? [Fc Pc] Fs]; subst. set (ln := cont_src c) in *.
  assert (Ep : ind_src ind (map cont_src cs) = par_lines lossy ind cs) by (unfold ind_src, par_lines; now rewrite map_map). rewrite Ep in *. clear Ep.
  assert (H0 : sees s (ind0 ++ ln ++ b_nl :: par_lines lossy ind cs ++ k)) by (now rewrite <- app_assoc in H).
  assert (T : only_text up dp n s).
  { apply (plain_only_text_w up dp lossy n s ind0 ln (b_nl :: par_lines lossy ind cs ++ k)); auto.
    - apply H0.
    - intros b r Eb. destruct Fc as (_ & _ & _ & _ & Fc). now apply (trimmed_head _ b r Fc).
    - right. eauto. }
  pose proof T as (R1 & R2 & R3 & R4 & R5 & R6 & R7 & R8 & R9). cbn [nested_block_element].
  skip_with ltac:(exact R2). skip_with ltac:(exact R3). skip_with ltac:(exact (no_nested_table s R4)).
  skip_with ltac:(exact R5). skip_with ltac:(exact R6). skip_with ltac:(exact R7). apply alt_take.
  eapply (block_got _ BParagraph _ _ _ (fun x => Forall2 same_cont x (c :: cs))); [|intros x Hx; exact (same_par _ _ Hx)].
  exact (paragraph_run up dp lossy Hsch n s ind0 ind c cs k H0 C X B0 B Hn T Fc Fs K).
Qed.
Lemma code_reads c : reads (BCode c).
Proof.
  intros n s ind k H C L B Hn (F0 & F1 & F2 & F2' & F3) _ _. cbn [SpecRound.block_lines] in *.
  pose proof (code_run_ind ind s c (n_map (cb_meta c)) k H B F2 (fine_meta _ F1) F2') as G. fold (ind_src ind (code_lines c (n_map (cb_meta c)))) in G.
  assert (X : ctxt s []) by exact (ctxt_lstart s (proj1 C) L).
  unfold ind_src in H. unfold code_lines in H at 1. cbn [map nl_lines flat_map] in H. cbn [code_lines firstn] in F3.
  inversion F3 as [|? ? F _]; subst. unfold no_colons in F. set (ln := bs "{{{" ++ code_head _ _) in *.
  match type of H with sees _ ((((ind ++ ln) ++ [b_nl]) ++ ?x) ++ k) => set (k1 := x ++ k) in * end.
  assert (E : remaining s = ind ++ ln ++ b_nl :: k1) by (destruct H as [_ H]; rewrite H, <- !app_assoc; reflexivity). assert (Lk : line_end (b_nl :: k1)) by (right; eauto).
  assert (Et : exists t, ln = x7b :: t) by (eexists; reflexivity). destruct Et as [t Et].
  assert (Nl : no_lead ln) by (intros b r Eb; rewrite Et in Eb; injection Eb as <- _; reflexivity).
  assert (R1 : fails (p_header up dp s)) by (apply (first_header s ind ln (b_nl :: k1)); try assumption; rewrite Et; other_head).
  assert (R2 : fails (p_definition_list up dp s)) by (apply (first_defs s ind ln (b_nl :: k1)); assumption).
  assert (R3 : fails (list_ (nested n) s)) by (apply (first_list s ind ln (b_nl :: k1)); try assumption; rewrite Et; apply no_item; reflexivity).
  assert (R4 : fails (p_table up dp s)) by (apply (first_table s ind ln (b_nl :: k1)); try assumption; rewrite Et; other_head).
  split; [|intros _; exact (ends_at_code n s _ R1 R2 R3 R4 _ G)].
  cbn [nested_block_element]. skip_with ltac:(exact R2). skip_with ltac:(exact R3). skip_with ltac:(exact (no_nested_table s R4)). apply alt_take.
  eapply (block_got _ BCode _ _ _ (fun x => x = CodeBlock (cb_lang c) (collect_map (n_map (cb_meta c))) (cb_lines c))); [exact G|].
  intros x -> cu. cbn [n_block cb_lang cb_meta cb_lines]. rewrite (n_map_collect _ F0). reflexivity.
Qed.
Lemma math_reads m : reads (BMath m).
Proof.
  intros n s ind k H C L B Hn (F1 & F2 & F3) _ _. cbn [SpecRound.block_lines] in *.
  pose proof (math_run_ind ind s m k H B F1 F2) as G. fold (ind_src ind (math_lines m)) in G.
  assert (X : ctxt s []) by exact (ctxt_lstart s (proj1 C) L).
  unfold ind_src in H. unfold math_lines in H at 1. cbn [map nl_lines flat_map] in H. cbn [math_lines firstn] in F3.
  inversion F3 as [|? ? F _]; subst. unfold no_colons in F. set (ln := bs "{{$" ++ env_text _) in *.
  match type of H with sees _ ((((ind ++ ln) ++ [b_nl]) ++ ?x) ++ k) => set (k1 := x ++ k) in * end.
  assert (E : remaining s = ind ++ ln ++ b_nl :: k1) by (destruct H as [_ H]; rewrite H, <- !app_assoc; reflexivity). assert (Lk : line_end (b_nl :: k1)) by (right; eauto).
  assert (Et : exists t, ln = x7b :: t) by (eexists; reflexivity). destruct Et as [t Et].
  assert (Nl : no_lead ln) by (intros b r Eb; rewrite Et in Eb; injection Eb as <- _; reflexivity).
  assert (R1 : fails (p_header up dp s)) by (apply (first_header s ind ln (b_nl :: k1)); try assumption; rewrite Et; other_head).
  assert (R2 : fails (p_definition_list up dp s)) by (apply (first_defs s ind ln (b_nl :: k1)); assumption).
  assert (R3 : fails (list_ (nested n) s)) by (apply (first_list s ind ln (b_nl :: k1)); try assumption; rewrite Et; apply no_item; reflexivity).
  assert (R4 : fails (p_table up dp s)) by (apply (first_table s ind ln (b_nl :: k1)); try assumption; rewrite Et; other_head).
  assert (R5 : fails (p_code_block s)) by (apply (first_code s ind ln (b_nl :: k1)); try assumption; unfold ln; intros r Er; discriminate).
  split; [|intros _; exact (ends_at_math n s _ R1 R2 R3 R4 R5 _ G)].
  cbn [nested_block_element]. skip_with ltac:(exact R2). skip_with ltac:(exact R3). skip_with ltac:(exact (no_nested_table s R4)).
  skip_with ltac:(exact R5). apply alt_take.
  eapply (block_got _ BMath _ _ _ (fun x => x = m)); [exact G|]. intros x -> cu. reflexivity.
Qed.
Lemma defs_first d s ind k : sees s (ind_src ind (block_lines (BDefList d)) ++ k) -> ctx s -> blanks ind -> block_fine (BDefList d) -> fails (p_header up dp s).
Proof.
  intros H C B [F0 F]. rewrite deflist_lines_eq in H. destruct d as [|x d]; [congruence|]. inversion F as [|? ? F1 _]; subst.
  destruct (td_head _ F1) as (c & r & ls & E & N1 & N2 & N3 & N4 & N5). cbn [flat_map] in H. rewrite E in H. cbn [app] in H.
  unfold ind_src in H. cbn [map nl_lines flat_map] in H. rewrite <- !app_assoc in H.
  refine (first_header s ind (c :: r) _ C (proj2 H) B (or_intror (ex_intro _ _ eq_refl)) _ _).
  - intros b q Eb. injection Eb as <- _. exact N1.
  - intro r'. apply N4. cbn. auto.
Qed.
Lemma defs_reads d : reads (BDefList d).
Proof.
  intros n s ind k H C L B Hn F _ K. cbn [then_ok] in K.
  pose proof (defs_run up dp lossy Hsch d ind s k B H C L (proj1 F) (proj2 F) K) as G. pose proof (defs_first d s ind k H C B F) as R1. split.
  - cbn [nested_block_element]. apply alt_take. eapply (block_got _ BDefList _ _ _ (fun x => same_deflist x d)); [exact G|]. intros x Hx. exact Hx.
  - intros _. exact (ends_at_defs n s _ R1 _ G).
Qed.
Lemma table_reads t : reads (BTable t).
Proof.
  intros n s ind k H C L B Hn F O K. cbn [then_ok] in K. change (block_fine (BTable t)) with (table_fine up dp lossy t) in F. cbn [in_item] in O.
  change (block_lines (BTable t)) with (table_lines lossy t) in *. rewrite (plain_lines lossy t O) in *.
  destruct (row_lines_head up dp lossy t F) as (r & ls & Er & A).
  assert (E : exists k1, remaining s = ind ++ (x7c :: r) ++ b_nl :: k1).
  { destruct H as [_ H]. rewrite H, Er. unfold ind_src. cbn [map nl_lines flat_map]. rewrite <- !app_assoc. cbn [app]. rewrite <- ?app_assoc. eauto. }
  destruct E as [k1 E]. rewrite row_lines_eq in *. unfold ind_src in *. rewrite <- rows_src_ind in *.
  pose proof (table_run up dp lossy Hsch t ind s k H B K F) as G.
  assert (X : ctxt s []) by exact (ctxt_lstart s (proj1 C) L). assert (Lk : line_end (b_nl :: k1)) by (right; eauto).
  set (ln := x7c :: r) in *. assert (Nl : no_lead ln) by (intros b q Eb; injection Eb as <- _; reflexivity).
  assert (R1 : fails (p_header up dp s)) by (apply (first_header s ind ln (b_nl :: k1)); try assumption; other_head).
  assert (R2 : fails (p_definition_list up dp s)) by (apply (first_defs s ind ln (b_nl :: k1)); assumption).
  assert (R3 : fails (list_ (nested n) s)) by (apply (first_list s ind ln (b_nl :: k1)); try assumption; apply no_item; reflexivity).
  split; [|intros _; exact (ends_at_table n s _ R1 R2 R3 _ G)].
  cbn [nested_block_element]. skip_with ltac:(exact R2). skip_with ltac:(exact R3). apply alt_take.
  eapply (block_got _ BTable _ _ _ (fun x => same_table x t)).
  - unfold p_nested_table. eapply got_pmap; [exact G|]. intros x Hx. destruct x as [x g]. cbn [lmap l_val] in *. rewrite <- O.
    exact (centered_same _ _ _ Hx).
  - intros x Hx cu. cbn [n_block]. f_equal. apply Hx.
Qed.
Lemma ind_src_cons ind l ls k : ind_src ind (l :: ls) ++ k = (ind ++ l) ++ b_nl :: ind_src ind ls ++ k.
Proof. unfold ind_src. cbn [map nl_lines flat_map]. now rewrite <- !app_assoc. Qed.
Lemma ind_src_len ind l ls : length (ind_src ind (l :: ls)) = length (ind ++ l) + 1 + length (ind_src ind ls).
Proof. unfold ind_src. cbn [map nl_lines flat_map]. rewrite !app_length. unfold nl_lines. cbn [length]. unfold str. lia. Qed.
Lemma ind_src_app ind a b : ind_src ind (a ++ b) = ind_src ind a ++ ind_src ind b.
Proof. unfold ind_src. now rewrite map_app, nl_lines_app. Qed.
(** What opens an item, on its first line. *)
Lemma open_run b l ls n s ind0 ind k : block_lines b = l :: ls -> opens_item b ->
  sees s ((ind0 ++ l) ++ b_nl :: ind_src ind ls ++ k) -> ctx s -> ctxt s [] -> blanks ind0 -> blanks ind -> remaining_len s < n ->
  block_fine b -> then_ok n ind b k (mv (length (ind0 ++ l) + 1 + length (ind_src ind ls)) s) ->
  got s (nested (S n) s) (length (ind0 ++ l) + 1 + length (ind_src ind ls)) (fun x => same_block (l_val x) b) /\
  (not_par b -> par_end up dp n s).
Proof.
  intros E O H C X B0 B Hn F K. destruct b as [qs|d| |h|items|m|cs|p|c|t]; try contradiction O; cbn [SpecRound.block_lines] in E.
  - destruct qs as [|q qs]; [discriminate|]. cbn [quote_lines map] in E. injection E as <- <-. fold (quote_lines qs) in *.
    destruct (quote_at q qs n s ind0 ind k H C X B0 B Hn F K) as [Q1 Q2]. split; [exact Q1|]. intros _. exact Q2.
  - destruct cs as [|c cs]; [discriminate|]. cbn [map] in E. injection E as <- <-. split; [|intros []].
    exact (par_at_run c cs n s ind0 ind k H C X B0 B Hn F K).
Qed.
Lemma open_reads b : opens_item b -> reads b.
Proof.
  intros O n s ind k H C L B Hn F _ K. destruct (open_head b F O) as (c & r & ls & E & _). rewrite E in *.
  rewrite ind_src_cons in H. rewrite ind_src_len in *.
  exact (open_run b (c :: r) ls n s ind ind k E O H C (ctxt_lstart s (proj1 C) L) B B Hn F K).
Qed.

(** * The blocks of an item, one after the other *)

Definition contents (n i : nat) : parser (list (located block)) :=
  many0 (preceded (verify (indentation_level false) (fun l => i <? l)) (deeper (nested n))).
Lemma ctx_deeper s : ctx s -> ctx (with_deeper s).
Proof. intro H. exact H. Qed.
Lemma next_block b ind cs k : block_fine b -> in_item b -> blanks ind -> exists c r, ind_src ind (block_lines b ++ cs) ++ k = ind ++ (c :: r) /\
  is_space c = false /\ c <> b_nl /\ c <> b_cr /\
  match b with BBlockquote _ => True | _ => no_quote (c :: r) end /\
  match b with BList _ => True | _ => forall t u pre r', prefix_ok t u pre -> c :: r <> pre ++ r' end /\
  match b with BDefList _ => True | _ => no_defs_here (ind ++ (c :: r)) end /\
  match b with BTable _ => True | _ => no_bar (ind ++ (c :: r)) end.
Proof.
  intros F O B. destruct (block_head b F O) as (c & r & ls & E & N1 & N2 & N3 & N4 & N5 & N6 & N7). rewrite E. cbn [app].
  rewrite ind_src_cons. exists c, (r ++ b_nl :: ind_src ind (ls ++ cs) ++ k). rewrite <- app_assoc. split; [reflexivity|].
  split; [exact N1|]. split; [exact N2|]. split; [exact N3|].
  pose proof (line_quote (c :: r) (ind_src ind (ls ++ cs) ++ k)) as Q. pose proof (line_item (c :: r) (ind_src ind (ls ++ cs) ++ k)) as Q2.
  assert (Q3 : absent (bs "::") (c :: r) -> no_defs_here (ind ++ c :: r ++ b_nl :: ind_src ind (ls ++ cs) ++ k)).
  { intro A. exists (ind ++ c :: r). eexists. split; [rewrite <- app_assoc; reflexivity|]. split; [right; eauto|now apply absent_blanks]. }
  assert (Q4 : (forall r', c :: r <> bs "|" ++ r') -> no_bar (ind ++ c :: r ++ b_nl :: ind_src ind (ls ++ cs) ++ k)).
  { intros N a q Ba Ea. destruct (blanks_unique _ _ _ _ _ _ Ea B Ba N1 eq_refl) as (_ & -> & _). exact (N r eq_refl). }
  cbn [app] in Q, Q2. repeat split; destruct b; try exact I; first [exact (Q N5)|exact (Q2 N6)|exact (Q3 N4)|exact (Q4 N7)].
Qed.
Lemma src_pos b ind : block_fine b -> in_item b -> 0 < length (ind_src ind (block_lines b)).
Proof. intros F O. destruct (block_head b F O) as (c & r & ls & -> & _). rewrite ind_src_len. lia. Qed.
Lemma after_ok b b0 cs n ind e : neighbours in_turn (b0 :: cs) -> l_val b0 = b ->
  Forall (fun x => in_item (l_val x)) cs -> Forall (fun x => block_fine (l_val x)) cs -> blanks ind ->
  (match cs with [] => True | c :: _ => not_par (l_val c) end -> par_end up dp n e) ->
  then_ok n ind b (ind_src ind (inside cs)) e.
Proof.
  intros [T _] <- O F B P. destruct cs as [|c cs].
  - destruct (l_val b0); try exact I; [now left| |now left|exact (P I)|intros a q _ Ea; destruct a; discriminate]. exists [], []. repeat split; [now left|]. intros a b. destruct a; discriminate.
  - inversion O as [|? ? O1 _]; subst. inversion F as [|? ? F1 _]; subst.
    destruct (next_block (l_val c) ind (inside cs) [] F1 O1 B) as (x & r & E & N1 & N2 & N3 & N4 & N5 & N6 & N7).
    rewrite app_nil_r in E. change (inside (c :: cs)) with (block_lines (l_val c) ++ inside cs). rewrite E.
    destruct (l_val b0); try exact I; cbn [then_ok].
    + right. exists [], ind, x, r. split; [reflexivity|]. split; [now left|]. repeat (split; [assumption|]). destruct (l_val c); exact N4 || contradiction T.
    + destruct (l_val c); exact N6 || contradiction T.
    + right. exists ind, x, r. split; [reflexivity|]. split; [assumption|]. split; [lia|]. split; [assumption|]. destruct (l_val c); exact N5 || contradiction T.
    + apply P. destruct (l_val c); exact I || exact T.
    + destruct (l_val c); exact N7 || contradiction T.
Qed.
Lemma contents_run i ind cs : i < length ind -> blanks ind -> Forall (fun x => reads (l_val x)) cs -> forall n s,
  sees s (ind_src ind (inside cs)) -> ctx s -> lstart s -> remaining_len s < n ->
  Forall (fun x => in_item (l_val x)) cs -> Forall (fun x => block_fine (l_val x)) cs -> neighbours in_turn cs ->
  got s (contents (S n) i s) (length (ind_src ind (inside cs))) (fun l => same_blocks l cs) /\
  (match cs with [] => True | c :: _ => not_par (l_val c) end -> par_end up dp n (with_deeper s)).
Proof.
  intros Hi B. induction cs as [|b cs IH]; intros R n s H C L Hn O F T.
  - split.
    + eapply got_weaken; [apply got_many0_nil|intros ? ->; constructor]. unfold preceded, verify. rewrite (peek_indent s (sees_ok _ _ H)).
      cbn [bind]. destruct H as [_ ->]. cbn. exact I.
    + intros _. exact (par_end_blank up dp lossy Hsch n _ [] (sees_deeper _ _ H) (or_introl eq_refl) (ctx_deeper s C) L Hn).
  - inversion R as [|? ? R1 Rs]; subst. inversion O as [|? ? O1 Os]; subst. inversion F as [|? ? F1 Fs]; subst.
    change (inside (b :: cs)) with (block_lines (l_val b) ++ inside cs) in *. rewrite ind_src_app in *.
    pose proof (src_pos (l_val b) ind F1 O1) as Hp. set (T1 := ind_src ind (block_lines (l_val b))) in *.
    pose proof (sees_mv _ _ _ H) as H2. pose proof (ctx_mv _ _ _ H C) as C2.
    assert (L2 : lstart (mv (length T1) s)) by (apply (lstart_nl s (map (app ind) (block_lines (l_val b))) (ind_src ind (inside cs))); assumption).
    assert (Hn2 : remaining_len (mv (length T1) s) < n).
    { rewrite (sees_len _ _ H2). rewrite (sees_len _ _ H), app_length in Hn. lia. }
    destruct (IH Rs n _ H2 C2 L2 Hn2 Os Fs (proj2 T)) as [G P].
    destruct (R1 n (with_deeper s) ind (ind_src ind (inside cs)) (sees_deeper _ _ H) (ctx_deeper s C) L B Hn F1 O1
      (after_ok _ b cs n ind _ T eq_refl Os Fs B P)) as [G1 P1]. fold T1 in G1. split; [|exact P1].
    rewrite app_length. eapply got_weaken; [apply (got_many0_cons s _ _ (length T1) (length (ind_src ind (inside cs)))
        (fun x => same_block (l_val x) (l_val b)) (fun l => same_blocks l cs) H)|].
    + rewrite app_length. lia.
    + exact Hp.
    + unfold preceded, verify. rewrite (peek_indent s (sees_ok _ _ H)). cbn [bind].
      assert (i <? count_while is_space (remaining s) = true) as ->.
      { apply Nat.ltb_lt. destruct H as [_ ->]. destruct (next_block (l_val b) ind (inside cs) [] F1 O1 B) as (x & r & E & _).
        rewrite app_nil_r, ind_src_app in E. fold T1 in E. rewrite E. pose proof (count_ind ind (x :: r) B). lia. }
      cbn [bind]. apply got_deeper. exact G1.
    + exact G.
    + intros l (x & l' & -> & Hx & Hl). constructor; assumption.
Qed.

(** * Items *)

Lemma ctxt_after s a r : sees s ((a ++ [b_sp]) ++ r) -> ctxt (mv (length (a ++ [b_sp])) s) [].
Proof.
  intro H. rewrite <- app_assoc in H. pose proof (ctxt_sp _ r (sees_mv _ _ _ H)) as X. rewrite mv_mv in X. rewrite app_length. exact X.
Qed.
Lemma region_then {A B} s a k (p : parser A) (P : A -> Prop) (f : A -> B) (Q : B -> Prop) : sees s (a ++ k) ->
  got (tk (length a) s) (p (tk (length a) s)) (length a) P -> (forall x, P x -> Q (f x)) ->
  got s (do (r1, x) <- p (tk (length a) s);;
         if sp_start r1 <? sp_start s then Panic else Ok (advance_start_by (sp_start r1 - sp_start s) s) (f x)) (length a) Q.
Proof.
  intros H G K. destruct (p (tk (length a) s)) as [s1 x| | |]; cbn [got bind] in *; try contradiction; [|exact I].
  destruct G as [-> G]. cbn [mv tk sp_start]. destruct (Nat.ltb_spec (sp_start s + length a) (sp_start s)); [lia|].
  split; [|auto]. unfold advance_start_by, mv. replace (sp_start s + length a - sp_start s) with (length a) by lia.
  pose proof (sees_len _ _ H) as Ln. rewrite app_length in Ln. unfold remaining_len in Ln. destruct H as [[H _] _].
  rewrite (proj2 (Nat.leb_le _ _) H) in Ln. destruct (Nat.ltb_spec (sp_end s) (sp_start s + length a)); [lia|reflexivity].
Qed.
Lemma todo_end t : exists x, todo_str (Some t) = x ++ [b_sp].
Proof. destruct t; eexists; cbn; match goal with |- ?a :: ?b :: ?c :: ?d :: [] = _ => instantiate (1 := [a; b; c]) end; reflexivity. Qed.

Definition item_like (x it : list_item) : Prop :=
  li_suffix x = li_suffix it /\ li_todo x = li_todo it /\ same_blocks (li_contents x) (li_contents it).
Lemma item_whole it : item_fine it -> (exists t u, prefix_ok t u (marker it)) -> Forall whole (item_lines it).
Proof.
  intros F (t & u & Hp). destruct it as [ty suf pos cs todo]. apply item_parts in F as (c & cs' & -> & O & Oi & _ & _ & F). inversion F as [|? ? Fc Fs]; subst.
  destruct (open_head _ Fc O) as (x & r & ls' & E & N1 & N2 & N3 & N4 & _).
  assert (W : Forall whole (inside (c :: cs'))).
  { assert (Oa : Forall (fun x => in_item (l_val x)) (c :: cs')) by (constructor; [exact (opens_in _ O)|exact Oi]).
    clear - F Oa Hsch. induction F as [|y ys Hy _ IHl]; [constructor|]. inversion Oa; subst. cbn [inside flat_map]. apply Forall_app.
    split; [apply block_whole; assumption|]. apply IHl. assumption. }
  rewrite item_lines_eq. cbn [inside flat_map] in *. rewrite E in *. cbn [app] in *. inversion W as [|? ? [W1 W2] Ws]; subst. constructor.
  + destruct (prefix_head _ _ _ Hp) as (_ & _ & _ & _ & Np).
    split; [rewrite !no_nl_app; repeat split; auto; destruct todo as [[]|]; nonl|]. rewrite app_assoc. apply no_cr_app; [discriminate|exact W2].
  + apply ind_whole; [nonl|cbn; intuition discriminate|exact Ws].
Qed.
Lemma tail_run todo c cs lc lcs n s ind i : block_lines (l_val c) = lc :: lcs -> opens_item (l_val c) ->
  sees s (todo_str todo ++ lc ++ b_nl :: ind_src ind (lcs ++ inside cs)) -> ctx s -> ctxt s [] -> blanks ind -> i < length ind -> remaining_len s < n ->
  (todo = None -> forall t r, lc <> todo_str (Some t) ++ r) -> block_fine (l_val c) -> Forall (fun x => in_item (l_val x)) cs ->
  Forall (fun x => block_fine (l_val x)) cs -> neighbours in_turn (c :: cs) -> Forall (fun x => reads (l_val x)) cs ->
  got s (list_item_tail_ (nested (S n)) i s) (length (todo_str todo ++ lc ++ b_nl :: ind_src ind (lcs ++ inside cs)))
    (fun x => fst x = todo /\ same_blocks (snd x) (c :: cs)).
Proof.
  intros E O H C X B Hi Hn Nt Fc Oi F T R. unfold list_item_tail_. rewrite ind_src_app in *. set (T1 := ind_src ind lcs) in *. set (T2 := ind_src ind (inside cs)) in *.
  assert (Hl : length (todo_str todo ++ lc ++ b_nl :: T1 ++ T2) = length (todo_str todo) + ((length lc + 1 + length T1) + (length T2 + 0))).
  { rewrite !app_length. cbn [length]. rewrite app_length. unfold str. lia. }
  rewrite Hl. eapply got_bind; [exact (todo_run todo lc s (T1 ++ T2) H Nt)|]. intros y ->.
  pose proof (sees_mv _ _ _ H) as H1. pose proof (ctx_mv _ _ _ H C) as C1.
  assert (X1 : ctxt (mv (length (todo_str todo)) s) []).
  { destruct todo as [td|]; [|cbn [todo_str length]; now rewrite mv_0]. destruct (todo_end td) as [q Eq]. rewrite Eq in *. exact (ctxt_after s q _ H). }
  set (s1 := mv (length (todo_str todo)) s) in *.
  assert (Hn1 : remaining_len s1 < n) by (rewrite (sees_len _ _ H1); rewrite (sees_len _ _ H), app_length in Hn; lia).
  assert (H1' : sees s1 ((lc ++ [b_nl] ++ T1) ++ T2)) by (rewrite <- !app_assoc; exact H1).
  assert (Hl2 : length (lc ++ [b_nl] ++ T1) = length lc + 1 + length T1) by (rewrite !app_length; cbn [length]; unfold str; lia).
  pose proof (sees_mv _ _ _ H1') as H2. pose proof (ctx_mv _ _ _ H1' C1) as C2. rewrite Hl2 in H2, C2.
  assert (L2 : lstart (mv (length lc + 1 + length T1) s1)) by (exact (lstart_lines s1 lc (map (app ind) lcs) T2 H1)).
  set (s2 := mv (length lc + 1 + length T1) s1) in *.
  assert (Hn2 : remaining_len s2 < n).
  { rewrite (sees_len _ _ H2). rewrite (sees_len _ _ H1'), app_length in Hn1. lia. }
  destruct (contents_run i ind cs Hi B R n s2 H2 C2 L2 Hn2 Oi F (proj2 T)) as [G P].
  eapply got_bind.
  - apply got_deeper.
    refine (proj1 (open_run (l_val c) lc lcs n (with_deeper s1) [] ind T2 E O (sees_deeper _ _ H1) (ctx_deeper _ C1) X1 blanks_nil B Hn1 Fc _)).
    exact (after_ok _ c cs n ind (with_deeper s2) T eq_refl Oi F B P).
  - intros y Hy. eapply got_bind; [exact G|]. intros ys Hys. apply got_ret. split; [reflexivity|]. cbn [snd]. constructor; assumption.
Qed.
Lemma ind_src_ind a b ls : ind_src a (map (app b) ls) = ind_src (a ++ b) ls.
Proof. unfold ind_src. now rewrite ind_ind. Qed.
Lemma item_run it t u n s ind k : sees s (ind_src ind (item_lines it) ++ k) -> ctx s -> lstart s -> blanks ind -> remaining_len s < n ->
  item_fine it -> prefix_ok t u (marker it) -> u = li_suffix it -> Forall (fun x => reads (l_val x)) (li_contents it) -> outside (length ind) k ->
  got s (list_item_ (nested n) s) (length (ind_src ind (item_lines it)))
    (fun x => fst x = length ind /\ li_ty (l_val (snd x)) = t /\ li_pos (l_val (snd x)) = 0 /\ item_like (l_val (snd x)) it).
Proof.
  intros H C L B Hn F Hp Hu R K.
  pose proof (item_whole it F ltac:(eauto)) as Fw. destruct it as [ty suf pos cs todo]. cbn [li_suffix li_contents] in Hu, R. subst u.
  destruct (item_parts _ _ _ _ _ F) as (c & cs' & -> & O & Oi & T & Nt & Fi). inversion Fi as [|? ? Fc Fs]; subst. inversion R as [|? ? _ Rs]; subst.
  destruct (open_head _ Fc O) as (x & r & ls & E & N1 & N2 & N3 & N4 & _). set (lc := x :: r) in *.
  rewrite item_lines_eq in *. change (inside (c :: cs')) with (block_lines (l_val c) ++ inside cs') in *. rewrite E in *. cbn [app firstn] in *.
  set (m := marker (ListItem ty suf pos (c :: cs') todo)) in *. set (l0 := m ++ todo_str todo ++ lc) in *. set (rest := ls ++ inside cs') in *.
  inversion Fw as [|? ? [W1 W2] Ws]; subst. rewrite ind_src_cons in H. rewrite ind_src_len. rewrite ind_src_ind in *. set (ind4 := ind ++ bs "    ") in *.
  assert (B4 : blanks ind4) by (apply Forall_app; split; [exact B|repeat constructor]).
  set (A := nl_lines (l0 :: map (app ind4) rest)).
  assert (EA : A = l0 ++ b_nl :: ind_src ind4 rest) by (unfold A; cbn [nl_lines flat_map]; rewrite <- app_assoc; reflexivity).
  assert (H0 : sees s (ind ++ A ++ k)) by (rewrite EA; rewrite <- !app_assoc in *; exact H).
  assert (Hd : nonblank_head (A ++ k)).
  { destruct (prefix_head _ _ _ Hp) as (c0 & q & Eq & S0 & _). intros y z Ey. rewrite EA in Ey. unfold l0 in Ey. rewrite Eq in Ey. cbn [app] in Ey.
    injection Ey as <- _. exact S0. }
  unfold list_item_. rewrite (bol_run s (sees_ok _ _ H) L). cbn [bind]. rewrite (eat_indent s ind _ H0 B Hd). cbn [bind].
  assert (HA : length (ind ++ l0) + 1 + length (ind_src ind4 rest) = length ind + length A).
  { rewrite EA, !app_length. cbn [length]. unfold str. lia. }
  eapply got_n; [|exact (eq_sym HA)]. apply got_shift. pose proof (sees_mv _ _ _ H0) as H2. set (s2 := mv (length ind) s) in *.
  assert (Fit : Forall (item_line (length ind)) (map (app ind4) rest)).
  { rewrite Forall_map in Ws. apply Forall_map. eapply Forall_impl; [|exact Ws]. intros l [V1 V2]. 
    assert (W : Forall whole (map (app ind) [bs "    " ++ l])).
    { apply ind_whole; [| |repeat constructor; assumption].
      - intro Hi. unfold blanks in B. rewrite Forall_forall in B. apply B in Hi. discriminate.
      - intro Hi. unfold blanks in B. rewrite Forall_forall in B. apply B in Hi. discriminate. }
    assert (W' : whole (ind4 ++ l)) by (unfold ind4; rewrite <- app_assoc; exact (Forall_inv W)). destruct W' as [V3 V4]. split; [exact V3|]. split; [exact V4|].
    exists ind4, l. split; [reflexivity|]. split; [exact B4|]. unfold ind4. rewrite app_length. cbn. lia. }
  eapply got_bind_r; [exact (region_run (length ind) l0 (map (app ind4) rest) s2 k H2 W1 W2 Fit K)|]. intros rem ->. fold A.
  eapply (region_then s2 A k _ (fun y => li_ty (l_val y) = t /\ li_pos (l_val y) = 0 /\ item_like (l_val y) _)); [exact H2| |intros y Hy; split; [reflexivity|exact Hy]].
  pose proof (sees_tk _ _ _ H2) as H3.
  assert (C3 : ctx (tk (length A) s2)).
  { split; [exact (sees_ok _ _ H3)|]. right. cbn [tk sp_end sp_inner].
    assert (H2' : sees s2 (l0 ++ b_nl :: nl_lines (map (app ind4) rest) ++ k)) by (rewrite EA, <- app_assoc in H2; exact H2).
    pose proof (lstart_lines s2 l0 _ k H2') as Q. unfold lstart in Q. cbn [mv sp_start sp_inner] in Q. rewrite EA, app_length. cbn [length].
    replace (length l0 + S (length (ind_src ind4 rest))) with (length l0 + 1 + length (nl_lines (map (app ind4) rest))) by (fold (ind_src ind4 rest); lia). exact Q. }
  assert (Hn3 : remaining_len (tk (length A) s2) < n).
  { rewrite (sees_len _ _ H3). rewrite (sees_len _ _ H0), !app_length in Hn. lia. }
  set (s3 := tk (length A) s2) in *.
  apply (got_located s3 _ _ (fun y => li_ty y = t /\ li_pos y = 0 /\ item_like y (ListItem ty suf pos (c :: cs') todo))).
  eapply (got_pmap s3 _ _ _ (fun y => fst y = (t, suf) /\ fst (snd y) = todo /\ same_blocks (snd (snd y)) (c :: cs'))).
  2: { intros [[t' u'] [td bl]]. cbn [fst snd]. intros (Ey & -> & Hb). injection Ey as -> ->. split; [reflexivity|]. split; [reflexivity|].
    split; [reflexivity|]. split; [reflexivity|exact Hb]. }
  set (V := todo_str todo ++ lc ++ b_nl :: ind_src ind4 rest).
  assert (EA2 : A = m ++ V) by (rewrite EA; unfold l0, V; now rewrite <- !app_assoc). rewrite EA2, app_length. rewrite EA2 in H3.
  unfold pair. eapply got_bind; [exact (prefix_run t suf m s3 V Hp H3)|]. intros y ->. rewrite <- (Nat.add_0_r (length V)).
  assert (Lm : 2 <= length m).
  { destruct (prefix_ends _ _ _ Hp) as (q & -> & Nq & _). rewrite app_length. destruct q; [congruence|]. cbn. lia. }
  destruct n as [|n]; [lia|].
  eapply (got_bind _ _ _ (fun y => fst y = todo /\ same_blocks (snd y) (c :: cs'))).
  - refine (tail_run todo c cs' lc ls n _ ind4 (length ind) E O (sees_mv _ _ _ H3) (ctx_mv _ _ _ H3 C3) _ B4 _ _ _ Fc Oi Fs T Rs).
    + destruct (prefix_ends _ _ _ Hp) as (q & Eq & _ & _). rewrite Eq in *. exact (ctxt_after s3 q V H3).
    + unfold ind4. rewrite app_length. cbn. lia.
    + rewrite (sees_len _ _ (sees_mv _ _ _ H3)). rewrite (sees_len _ _ H3), app_length in Hn3. lia.
    + intros En td q. specialize (Nt En td). inversion Nt; subst. auto.
  - intros y [Hy1 Hy2]. apply got_ret. cbn [fst snd]. split; [reflexivity|]. split; assumption.
Qed.

(** * Lists *)

Lemma item_next it t u ind more k : item_fine it -> prefix_ok t u (marker it) ->
  exists c r, ind_src ind (item_lines it ++ more) ++ k = ind ++ c :: r /\ is_space c = false.
Proof.
  intros F Hp. destruct (item_head it F) as (r & ls & E & _ & A). destruct (marker_head _ _ _ r Hp A) as (c & q & Eq & N1 & _).
  rewrite E, Eq. cbn [app]. rewrite ind_src_cons. do 2 eexists. split; [rewrite <- app_assoc; cbn [app]; reflexivity|exact N1].
Qed.
Lemma count_lead a c r : blanks a -> is_space c = false -> count_while is_space (a ++ c :: r) = length a.
Proof. intros B N. apply count_blanks; [exact B|]. intros y t E. injection E as <- _. exact N. Qed.
Lemma stop_outside i k : list_stop i k -> outside i k.
Proof.
  intros [->|(a & c & r & -> & B & L & N & _)]; unfold outside; [cbn; lia|]. rewrite (count_lead a c r B N). exact L.
Qed.
Definition more_items (n i : nat) : parser (list (located list_item)) :=
  many0 (preceded (verify (indentation_level false) (fun l => l =? i)) (pmap (deeper (list_item_ (nested n))) snd)).
Definition readable (x : located list_item) : Prop :=
  item_fine (l_val x) /\ (exists t, prefix_ok t (li_suffix (l_val x)) (marker (l_val x))) /\
  Forall (fun y => reads (l_val y)) (li_contents (l_val x)).
Definition items_src (ind : str) (items : list (located list_item)) : str := ind_src ind (flat_map (fun x => item_lines (l_val x)) items).
Lemma items_outside ind items k : blanks ind -> Forall readable items -> list_stop (length ind) k -> outside (length ind) (items_src ind items ++ k).
Proof.
  intros B F S. destruct items as [|x xs]; [exact (stop_outside _ _ S)|]. inversion F as [|? ? (F1 & (t & F2) & _) _]; subst.
  destruct (item_next (l_val x) _ _ ind (flat_map (fun x => item_lines (l_val x)) xs) k F1 F2) as (c & r & E & N).
  unfold outside, items_src. cbn [flat_map]. rewrite E, (count_lead ind c r B N). lia.
Qed.
Lemma items_run ind items : blanks ind -> forall n s k, sees s (items_src ind items ++ k) -> ctx s -> lstart s ->
  remaining_len s < n -> Forall readable items -> list_stop (length ind) k ->
  got s (more_items n (length ind) s) (length (items_src ind items)) (fun l => Forall2 (fun x y => item_like (l_val x) (l_val y)) l items).
Proof.
  intro B. induction items as [|x xs IH]; intros n s k H C L Hn F K.
  - eapply got_weaken; [apply got_many0_nil|intros ? ->; constructor]. change (items_src ind [] ++ k) with k in H.
    unfold preceded, verify. rewrite (peek_indent s (sees_ok _ _ H)). cbn [bind]. destruct (_ =? _); [|exact I]. cbn [bind].
    apply fails_pmap, fails_deeper. apply (no_item_f n (with_deeper s) (ctx_deeper s C) Hn). intros a t u pre r Ba Hp E.
    change (remaining (with_deeper s)) with (remaining s) in E. rewrite (proj2 H) in E. destruct (prefix_head _ _ _ Hp) as (c & q & Eq & Sc & _).
    destruct K as [->|(a' & c' & r' & -> & Ba' & _ & Sc' & N)]; [destruct a; [rewrite Eq in E|]; discriminate|].
    assert (E' : a' ++ c' :: r' = a ++ c :: q ++ r) by (rewrite E, Eq; reflexivity).
    destruct (blanks_unique _ _ _ _ _ _ E' Ba' Ba Sc' Sc) as (_ & -> & ->). apply (N t u pre r Hp). now rewrite Eq.
  - inversion F as [|? ? (F1 & (t & F2) & F3) Fs]; subst. change (items_src ind (x :: xs)) with (ind_src ind (item_lines (l_val x) ++ flat_map (fun x => item_lines (l_val x)) xs)) in *.
    pose proof (item_next (l_val x) _ _ ind (flat_map (fun x => item_lines (l_val x)) xs) k F1 F2) as (c & r & E & N).
    rewrite ind_src_app in *. fold (items_src ind xs) in *. set (T1 := ind_src ind (item_lines (l_val x))) in *.
    assert (H' : sees s (T1 ++ items_src ind xs ++ k)) by (now rewrite <- app_assoc in H).
    pose proof (sees_mv _ _ _ H') as H2. pose proof (ctx_mv _ _ _ H' C) as C2.
    assert (Hp : 0 < length T1) by (unfold T1; destruct (item_head _ F1) as (r0 & ls & -> & _); rewrite ind_src_len; lia).
    rewrite app_length. eapply got_weaken; [apply (got_many0_cons s _ _ (length T1) (length (items_src ind xs))
        (fun y => item_like (l_val y) (l_val x)) (fun l => Forall2 (fun x y => item_like (l_val x) (l_val y)) l xs) H')|].
    + rewrite app_length. lia.
    + exact Hp.
    + unfold preceded, verify. rewrite (peek_indent s (sees_ok _ _ H)). cbn [bind]. rewrite (proj2 H), E, (count_lead ind c r B N), Nat.eqb_refl. cbn [bind].
      eapply got_pmap; [apply got_deeper;
        exact (item_run (l_val x) t _ n (with_deeper s) ind _ (sees_deeper _ _ H') (ctx_deeper s C) L B Hn F1 F2 eq_refl F3 (items_outside ind xs k B Fs K))|].
      intros y (_ & _ & _ & Hy). exact Hy.
    + apply (IH n _ k H2 C2); [|  |exact Fs|exact K].
      * exact (lstart_nl s (map (app ind) (item_lines (l_val x))) _ H' L).
      * rewrite (sees_len _ _ H2). rewrite (sees_len _ _ H'), app_length in Hn. lia.
    + intros l (y & l' & -> & Hy & Hl). constructor; assumption.
Qed.
Lemma same_contents cu xs ys : same_blocks xs ys -> map (n_loc nowhere (n_block cu nowhere (n_cont cu nowhere))) xs = map (n_loc nowhere (n_block cu nowhere (n_cont cu nowhere))) ys.
Proof. induction 1 as [|x y xs ys H _ IH]; cbn [map]; [reflexivity|]. f_equal; [|exact IH]. unfold n_loc. f_equal. apply H. Qed.
Lemma like_item cu x it t p : item_like x it -> li_ty it = t -> li_pos it = p ->
  n_item cu nowhere (n_cont cu nowhere) (li_with_ty t (li_with_pos p x)) = n_item cu nowhere (n_cont cu nowhere) it.
Proof.
  destruct x as [tx sx px cx dx], it as [ti si pi ci di]. cbn [li_ty li_pos li_suffix li_todo li_contents item_like li_with_ty li_with_pos].
  intros (E1 & E2 & E3) -> ->. cbn in E1, E2, E3. subst si di.
  change (ListItem t sx p (map (n_loc nowhere (n_block cu nowhere (n_cont cu nowhere))) cx) dx = ListItem t sx p (map (n_loc nowhere (n_block cu nowhere (n_cont cu nowhere))) ci) dx).
  f_equal. now apply same_contents.
Qed.
Lemma like_items cu t : forall xs items p, Forall2 (fun x y => item_like (l_val x) (l_val y)) xs items ->
  Forall (fun y => li_ty (l_val y) = t) items -> map (fun x => li_pos (l_val x)) items = seq p (length items) ->
  map (n_loc nowhere (n_item cu nowhere (n_cont cu nowhere))) (map (lmap (li_with_ty t)) (assign_pos p xs)) = map (n_loc nowhere (n_item cu nowhere (n_cont cu nowhere))) items.
Proof.
  intros xs items p H. revert p. induction H as [|x y xs ys Hx _ IH]; intros p F E; [reflexivity|]. inversion F; subst. cbn [map length seq] in E. injection E as E1 E2.
  cbn [map assign_pos]. f_equal.
  - unfold n_loc, lmap. cbn [l_val l_reg]. f_equal. now apply like_item.
  - rewrite Nat.add_1_r. now apply IH.
Qed.
Lemma list_run n s ind items k : sees s (ind_src ind (block_lines (BList items)) ++ k) -> ctx s -> lstart s -> blanks ind -> remaining_len s < n ->
  block_fine (BList items) -> list_stop (length ind) k -> Forall (fun x => Forall (fun y => reads (l_val y)) (li_contents (l_val x))) items ->
  got s (list_ (nested n) s) (length (ind_src ind (block_lines (BList items)))) (fun x => same_block (BList (l_val x)) (BList items)).
Proof.
  intros H C L B Hn F K R. apply list_fine in F as (M & P & F). destruct items as [|x xs]; [contradiction|]. destruct M as [M Ms].
  inversion F as [|? ? F1 Fs]; subst. inversion R as [|? ? R1 Rs]; subst. cbn [map length seq] in P. injection P as P1 P2.
  change (block_lines (BList (x :: xs))) with (item_lines (l_val x) ++ flat_map (fun x => item_lines (l_val x)) xs) in *.
  rewrite ind_src_app in *. fold (items_src ind xs) in *. set (T1 := ind_src ind (item_lines (l_val x))) in *.
  assert (H' : sees s (T1 ++ items_src ind xs ++ k)) by (now rewrite <- app_assoc in H).
  pose proof (sees_mv _ _ _ H') as H2. pose proof (ctx_mv _ _ _ H' C) as C2.
  assert (Fr : Forall readable xs).
  { clear - Fs Rs Ms. induction Fs as [|y ys Fy _ IH]; [constructor|]. inversion Rs; inversion Ms as [|? ? [_ My] ?]; subst. constructor; [|apply IH; assumption].
    repeat split; assumption. }
  unfold list_. apply (got_located s _ _ (fun l => same_block (BList l) (BList (x :: xs)))). rewrite app_length.
  eapply got_bind; [apply got_deeper;
    exact (item_run (l_val x) _ _ n (with_deeper s) ind _ (sees_deeper _ _ H') (ctx_deeper s C) L B Hn F1 M eq_refl R1 (items_outside ind xs k B Fr K))|].
  intros [i y] (Hi & Ht & Hpos & Hy). cbn [fst snd] in *. subst i. rewrite <- (Nat.add_0_r (length (items_src ind xs))). eapply got_bind.
  - apply (items_run ind xs B n _ k H2 C2 (lstart_nl s (map (app ind) (item_lines (l_val x))) _ H' L)); [|exact Fr|exact K].
    rewrite (sees_len _ _ H2). rewrite (sees_len _ _ H'), app_length in Hn. lia.
  - intros l Hl. apply got_ret. intro cu. cbn [normalize_list].
    change (BList (map (n_loc nowhere (n_item cu nowhere (n_cont cu nowhere))) (y :: map (lmap (li_with_ty (li_ty (l_val y)))) (assign_pos 1 l))) =
            BList (map (n_loc nowhere (n_item cu nowhere (n_cont cu nowhere))) (x :: xs))).
    f_equal. rewrite Ht. cbn [map]. f_equal.
    + unfold n_loc. f_equal. rewrite <- (like_item cu (l_val y) (l_val x) _ 0 Hy eq_refl P1).
      f_equal. rewrite <- Ht, <- Hpos. destruct (l_val y); reflexivity.
    + apply like_items; [exact Hl| |exact P2]. eapply Forall_impl; [|exact Ms]. intros z [Hz _]. exact Hz.
Qed.
Lemma list_first items s ind k : sees s (ind_src ind (block_lines (BList items)) ++ k) -> ctx s -> lstart s -> blanks ind -> block_fine (BList items) ->
  fails (p_header up dp s) /\ fails (p_definition_list up dp s).
Proof.
  intros H C L B F. destruct (block_head _ F I) as (c & r & ls & E & N1 & N2 & N3 & N4 & _). rewrite E in H. rewrite ind_src_cons, <- app_assoc in H.
  assert (Nl : no_lead (c :: r)) by (intros b q Eb; injection Eb as <- _; exact N1). split.
  - refine (first_header s ind (c :: r) _ C (proj2 H) B (or_intror (ex_intro _ _ eq_refl)) Nl _).
    intros q Eq. injection Eq as -> _. apply list_fine in F as (M & _ & F). destruct items as [|x xs]; [contradiction|]. destruct M as [M _].
    inversion F; subst. destruct (item_head (l_val x)) as (r0 & l0 & E0 & _ & _); [assumption|].
    change (block_lines (BList (x :: xs))) with (item_lines (l_val x) ++ flat_map (fun x => item_lines (l_val x)) xs) in E. rewrite E0 in E.
    destruct (prefix_byte _ _ _ M) as (b & q' & Eb & Hb). rewrite Eb in E. cbn [app] in E. injection E as -> _. discriminate.
  - exact (first_defs s ind (c :: r) _ C (proj2 H) B (or_intror (ex_intro _ _ eq_refl)) (ctxt_lstart s (proj1 C) L) N4).
Qed.
Lemma list_reads items : Forall (fun x => Forall (fun y => reads (l_val y)) (li_contents (l_val x))) items -> reads (BList items).
Proof.
  intros R n s ind k H C L B Hn F O K. cbn [then_ok] in K.
  pose proof (list_run n s ind items k H C L B Hn F K R) as G. destruct (list_first items s ind k H C L B F) as [R1 R2]. split.
  - cbn [nested_block_element]. skip_with ltac:(exact R2). apply alt_take.
    eapply (block_got _ BList _ _ _ (fun x => same_block (BList x) (BList items))); [exact G|]. intros x Hx. exact Hx.
  - intros _. exact (ends_at_list n s _ R1 R2 _ G).
Qed.
Theorem all_read b : reads b.
Proof.
  apply (block_ind' reads (fun i => Forall (fun y => reads (l_val y)) (li_contents i))).
  - intros b0 Hnl. destruct b0 as [ls|d| |h|items|m|ls|p|c|t]; try (intros ? ? ? ? ? ? ? ? ? ? []; fail).
    + apply open_reads. exact I.
    + apply defs_reads.
    + now destruct (Hnl items).
    + apply math_reads.
    + apply open_reads. exact I.
    + apply code_reads.
    + apply table_reads.
  - intros items H. exact (list_reads items H).
  - intros ty suf pos cs todo H. exact H.
Qed.
Lemma reads_items items : Forall (fun x => Forall (fun y => reads (l_val y)) (li_contents (l_val x))) items.
Proof. apply Forall_forall. intros x _. apply Forall_forall. intros y _. apply all_read. Qed.
End Lists.
