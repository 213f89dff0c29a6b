(** What the parser returns are values of the Rust types: maps have each key
    once and tables the size of their cells. *)
From Verif Require Import Base ModelSpan ModelComb ModelAst ModelTable ModelLink ModelInline ModelBlock SpecBlock SpecEq ProofBase ProofFence ProofEq.
From Verif Require ProofTable ProofEq4.
Local Open Scope nat_scope.

Definition yields {A} (p : parser A) (P : A -> Prop) : Prop := forall s r x, p s = Ok r x -> P x.
Lemma yields_any {A} (p : parser A) : yields p (fun _ => True).
Proof. now intros s r x _. Qed.
Lemma yields_weaken {A} (p : parser A) (P Q : A -> Prop) : yields p P -> (forall x, P x -> Q x) -> yields p Q.
Proof. intros H HQ s r x E. eauto. Qed.
Lemma bind_ok {A B} (p : res A) (f : span -> A -> res B) r x : bind p f = Ok r x -> exists s1 y, p = Ok s1 y /\ f s1 y = Ok r x.
Proof. destruct p; cbn; try discriminate. eauto. Qed.
Lemma yields_bind {A B} (p : span -> res A) (f : span -> span -> A -> res B) (P : A -> Prop) (Q : B -> Prop) :
  yields p P -> (forall s y, P y -> yields (fun s1 => f s s1 y) Q) -> yields (fun s => bind (p s) (f s)) Q.
Proof. intros H K s r x E. apply bind_ok in E as (s1 & y & E1 & E2). exact (K s y (H _ _ _ E1) _ _ _ E2). Qed.
Lemma yields_pmap {A B} (p : parser A) (f : A -> B) (P : A -> Prop) (Q : B -> Prop) : yields p P -> (forall x, P x -> Q (f x)) -> yields (pmap p f) Q.
Proof. intros H K s r x E. apply bind_ok in E as (s1 & y & E1 & E2). injection E2 as _ <-. eauto. Qed.
Lemma yields_palt {A} (p q : parser A) P : yields p P -> yields q P -> yields (palt p q) P.
Proof. intros H K s r x. unfold palt. destruct (p s) eqn:E; intro F; try discriminate; [|eauto]. rewrite F in E. eauto. Qed.
Lemma yields_alt {A} (ps : list (parser A)) P : Forall (fun p => yields p P) ps -> yields (alt ps) P.
Proof. induction 1 as [|p ps H _ IH]; [intros s r x E; discriminate|]. now apply yields_palt. Qed.
Lemma yields_located {A} (p : parser A) (P : A -> Prop) : yields p P -> yields (located_p p) (fun x => P (l_val x)).
Proof.
  intros H s r x E. unfold located_p, locate, capture in E. apply bind_ok in E as (s1 & [y g] & E1 & E2). injection E2 as _ <-.
  apply bind_ok in E1 as (s2 & z & E1 & E3). destruct (sp_start s2 <? sp_start s); [discriminate|]. injection E3 as _ <- _. exact (H _ _ _ E1).
Qed.
Lemma yields_deeper {A} (p : parser A) (P : A -> Prop) : yields p P -> yields (deeper p) P.
Proof. intros H s r x E. apply bind_ok in E as (s1 & y & E1 & E2). injection E2 as _ <-. eauto. Qed.
Lemma yields_many0 {A} (p : parser A) P : yields p P -> yields (many0 p) (Forall P).
Proof.
  intros H s r x. unfold many0. generalize (S (remaining_len s)). intro n. revert s r x. induction n as [|n IH]; intros s r x E; [discriminate|].
  cbn [many0_fuel] in E. destruct (p s) as [s1 a| | |] eqn:Ep; try discriminate; [|injection E as _ <-; constructor].
  destruct (span_eqb s1 s); [discriminate|]. apply bind_ok in E as (s2 & l & E1 & E2). injection E2 as _ <-. constructor; eauto.
Qed.
Lemma yields_many1 {A} (p : parser A) P : yields p P -> yields (many1 p) (Forall P).
Proof.
  intros H s r x E. apply bind_ok in E as (s1 & y & E1 & E2). apply bind_ok in E2 as (s2 & l & E2 & E3). injection E3 as _ <-.
  constructor; [eauto|]. exact (yields_many0 p P H _ _ _ E2).
Qed.
Lemma yields_sep {A B} (sep : parser B) (p : parser A) P : yields p P -> yields (separated_list1 sep p) (Forall P).
Proof.
  intros H s r x E. apply bind_ok in E as (s1 & y & E1 & E2). apply bind_ok in E2 as (s2 & l & E2 & E3). injection E3 as _ <-. constructor; [eauto|].
  clear E1. revert E2. generalize (S (remaining_len s1)). intro n. revert s1 s2 l. induction n as [|n IH]; intros s1 s2 l E; [discriminate|]. cbn [sep_loop] in E.
  destruct (sep s1) as [s3 b| | |]; try discriminate; [|injection E as _ <-; constructor]. destruct (span_eqb s3 s1); [discriminate|].
  destruct (p s3) as [s4 a| | |] eqn:Ep; try discriminate; [|injection E as _ <-; constructor]. apply bind_ok in E as (s5 & l' & E3 & E4). injection E4 as _ <-.
  constructor; eauto.
Qed.
Lemma yields_map_parser {B} (p : parser span) (q : parser B) P : yields q P -> yields (map_parser p q) P.
Proof. intros H s r x E. apply bind_ok in E as (s1 & y & E1 & E2). apply bind_ok in E2 as (s2 & z & E2 & E3). injection E3 as _ <-. eauto. Qed.
Lemma yields_preceded {A B} (p : parser A) (q : parser B) P : yields q P -> yields (preceded p q) P.
Proof. intros H s r x E. apply bind_ok in E as (s1 & y & E1 & E2). eauto. Qed.
Lemma yields_terminated {A B} (p : parser A) (q : parser B) P : yields p P -> yields (terminated p q) P.
Proof. intros H s r x E. apply bind_ok in E as (s1 & y & E1 & E2). apply bind_ok in E2 as (s2 & z & E2 & E3). injection E3 as _ <-. eauto. Qed.
Lemma yields_verify {A} (p : parser A) f P : yields p P -> yields (verify p f) P.
Proof. intros H s r x E. apply bind_ok in E as (s1 & y & E1 & E2). destruct (f y); [|discriminate]. injection E2 as _ <-. eauto. Qed.
Lemma yields_opt {A} (p : parser A) (P : A -> Prop) : yields p P -> yields (opt p) (fun o => match o with Some x => P x | None => True end).
Proof. intros H s r x. unfold opt. destruct (p s) eqn:E; intro F; try discriminate; injection F as _ <-; [eauto|exact I]. Qed.
Lemma Forall_all_iff {A} (P : A -> Prop) l : Forall P l -> all P l.
Proof. induction 1; cbn; auto. Qed.

Section Parsers.
Variable up : str -> option uri.
Variable dp : str -> option date.
Local Notation ok_l := (fun x : located link => ok_link (l_val x)).
Local Notation opt_ok := (fun o : option description => match o with Some d => ok_desc d | None => True end).

Lemma collect_ok l : keyed (collect_map l).
Proof. exact (proj1 (collect_map_last l)). Qed.
Lemma props_ok : yields link_properties (keyed (V := str)).
Proof.
  unfold link_properties. eapply yields_bind; [apply yields_any|]. intros _ _ _. eapply yields_pmap; [apply yields_any|]. intros l _. apply collect_ok.
Qed.
Lemma desc_ok tr : yields tr ok_l -> yields (link_description_ tr) ok_desc.
Proof.
  intro H. unfold link_description_. eapply yields_bind; [apply yields_any|]. intros _ _ _. apply yields_map_parser, yields_palt.
  - eapply yields_pmap; [exact H|]. intros x Hx. exact Hx.
  - eapply yields_pmap; [apply yields_any|]. intros x _. exact I.
Qed.
Lemma data_ok tr : yields tr ok_l -> yields (link_data_ up tr) ok_data.
Proof.
  intro H. unfold link_data_. eapply yields_bind; [apply yields_any|]. intros _ u _. eapply yields_bind; [apply yields_opt, (desc_ok tr H)|]. intros _ d Hd.
  eapply yields_bind; [apply yields_opt, props_ok|]. intros _ p Hp s r x E. injection E as _ <-. cbn [ok_data]. split; [exact Hd|exact Hp].
Qed.
Lemma transclusion_ok n : yields (transclusion_link up n) ok_l.
Proof.
  induction n as [|n IH]; [intros s r x E; discriminate|]. cbn [transclusion_link].
  assert (Y : yields (located_p (map_parser (not_contains pct2 (surround_in_line1 (bs "{{") (bs "}}")))
        (fun s => do (s1, d) <- link_data_ up (transclusion_link up n) s;; Ok s1 (LTransclusion d)))) ok_l).
  { apply (yields_located _ ok_link), yields_map_parser. eapply yields_bind; [exact (data_ok _ IH)|]. intros _ d Hd s8 r8 x8 E. injection E as _ <-. exact Hd. }
  exact Y.
Qed.
Lemma p_transclusion_ok : yields (p_transclusion up) ok_l.
Proof. intros s r x E. exact (transclusion_ok _ _ _ _ E). Qed.
Lemma description_ok : yields (link_description up) ok_desc.
Proof. apply desc_ok, p_transclusion_ok. Qed.
Lemma link_ok : yields (p_link up dp) ok_l.
Proof.
  apply yields_alt. repeat constructor; [| | | | |exact p_transclusion_ok]; unfold bracket_link; apply (yields_located _ ok_link); try apply yields_map_parser.
  - do 3 (eapply yields_bind; [apply yields_any|]; intros _ ? _). eapply yields_bind; [apply yields_opt, description_ok|]. intros _ d Hd s8 r8 x8 E.
    unfold new_diary_link in E. destruct (up _); [|discriminate]. injection E as _ <-. split; [exact Hd|exact I].
  - do 2 (eapply yields_bind; [apply yields_any|]; intros _ ? _). eapply yields_bind; [apply yields_opt, description_ok|]. intros _ d Hd s8 r8 x8 E.
    injection E as _ <-. split; [exact Hd|exact I].
  - do 2 (eapply yields_bind; [apply yields_any|]; intros _ ? _). eapply yields_bind; [apply yields_opt, description_ok|]. intros _ d Hd s8 r8 x8 E.
    injection E as _ <-. split; [exact Hd|exact I].
  - eapply yields_bind; [exact (data_ok _ p_transclusion_ok)|]. intros _ d Hd s8 r8 x8 E. injection E as _ <-. exact Hd.
  - eapply yields_bind; [apply yields_any|]. intros _ u _ s8 r8 x8 E. injection E as _ <-. split; exact I.
Qed.
Definition ok_deco (d : decorated) : Prop := all (fun x => ok_dc (l_val x)) (snd d).
Local Notation ok_d := (fun x : located decorated => ok_deco (l_val x)).
Local Notation ok_i := (fun x : located inline => ok_inline (l_val x)).
Lemma deco_text_ok k w dec : yields dec ok_d -> yields (deco_text up dp k w dec) ok_deco.
Proof.
  intro H. unfold deco_text. eapply yields_pmap; [apply yields_map_parser, yields_deeper, yields_many1|].
  - apply (yields_alt _ (fun x => ok_dc (l_val x))). repeat constructor; (eapply yields_pmap; [|intros x Hx; exact Hx]); [exact link_ok|apply yields_any|exact H|apply yields_any].
  - intros x Hx. unfold ok_deco. cbn [snd]. now apply Forall_all_iff.
Qed.
Lemma decorated_ok n : yields (decorated_text up dp n) ok_d.
Proof.
  induction n as [|n IH]; [intros s r x E; discriminate|]. intros s r x E. cbn [decorated_text] in E. revert E. revert s r x.
  match goal with |- forall s r x, ?f s = _ -> _ => change (yields f ok_d) end. apply (yields_located _ ok_deco), yields_alt. repeat constructor; now apply deco_text_ok.
Qed.
Lemma p_decorated_ok : yields (p_decorated up dp) ok_d.
Proof. intros s r x E. exact (decorated_ok _ _ _ _ E). Qed.
Lemma inline_ok : yields (inline_element up dp) ok_i.
Proof.
  apply yields_alt. repeat constructor; (eapply yields_pmap; [|intros x Hx; exact Hx]); try apply yields_any; [exact link_ok|exact p_decorated_ok].
Qed.
Lemma container_ok : yields (inline_element_container up dp) (fun x => ok_cont (l_val x)).
Proof.
  apply (yields_located _ ok_cont). eapply yields_weaken; [apply yields_many1, yields_deeper, inline_ok|]. intros x Hx. now apply Forall_all_iff.
Qed.
Lemma inner_ok : yields (container_inner up dp) ok_cont.
Proof. eapply yields_pmap; [exact container_ok|]. auto. Qed.
Lemma header_ok : yields (p_header up dp) (fun x => ok_cont (h_content (l_val x))).
Proof.
  apply (yields_located _ (fun h => ok_cont (h_content h))). do 3 (eapply yields_bind; [apply yields_any|]; intros _ ? _).
  eapply yields_bind; [|intros ? h Hh; eapply yields_bind; [apply yields_any|]; intros _ ? _ s8 r8 x8 E; injection E as _ <-; exact Hh].
  eapply yields_pmap; [|intros x Hx; exact Hx]. intros s8 r8 x8 E. unfold header_tail in E. do 6 apply bind_ok in E as (? & ? & _ & E).
  apply bind_ok in E as (? & c & E1 & E2). injection E2 as _ <-. exact (inner_ok _ _ _ E1).
Qed.
Lemma code_ok : yields p_code_block (fun x => keyed (cb_meta (l_val x))).
Proof.
  apply (yields_located _ (fun c => keyed (cb_meta c))). eapply (yields_bind _ _ (fun b => keyed (snd b))).
  - unfold code_block_start. do 7 (eapply yields_bind; [apply yields_any|]; intros _ ? _). intros s8 r8 x8 E. injection E as _ <-. apply collect_ok.
  - intros _ b Hb. do 2 (eapply yields_bind; [apply yields_any|]; intros _ ? _). intros s8 r8 x8 E. destruct (dedent _ _); [|discriminate]. injection E as _ <-. exact Hb.
Qed.
Local Notation ok_c := (fun x : located container => ok_cont (l_val x)).
Lemma deflist_ok : yields (p_definition_list up dp) (fun x => all (fun y => ok_td (l_val y)) (l_val x)).
Proof.
  apply (yields_located _ (fun d => all (fun y => ok_td (l_val y)) d)).
  eapply (yields_pmap _ _ (Forall (fun p => ok_cont (l_val (fst p)) /\ all (fun x => ok_cont (l_val x)) (l_val (snd p))))).
  2: { intros x Hx. apply Forall_all_iff, Forall_map. eapply Forall_impl; [|exact Hx]. intros p Hp. exact Hp. }
  apply yields_many1, yields_deeper. unfold term_and_definitions.
  eapply (yields_bind _ _ (fun td => ok_c (fst td) /\ match snd td with Some d => ok_c d | None => True end)).
  - unfold term_line. eapply yields_bind; [apply yields_any|]. intros _ _ _.
    eapply (yields_bind _ _ ok_c); [apply (yields_located _ ok_cont), yields_terminated, yields_map_parser, inner_ok|]. intros _ t Ht.
    eapply (yields_bind _ _ (fun o => match o with Some d => ok_c d | None => True end));
      [apply (yields_opt _ ok_c), (yields_located _ ok_cont), yields_preceded, yields_map_parser, inner_ok|]. intros _ d Hd.
    eapply yields_bind; [apply yields_any|]. intros _ _ _ s8 r8 x8 E. injection E as _ <-. auto.
  - intros _ td [H1 H2]. eapply (yields_bind _ _ (fun b => Forall ok_c (l_val b))).
    + apply (yields_located _ (Forall ok_c)), yields_verify, yields_many0. unfold definition_line. apply (yields_located _ ok_cont).
      do 3 (eapply yields_bind; [apply yields_any|]; intros _ ? _). eapply yields_bind; [apply yields_map_parser, inner_ok|]. intros _ c Hc.
      eapply yields_bind; [apply yields_any|]. intros _ _ _ s8 r8 x8 E. injection E as _ <-. exact Hc.
    + intros _ b Hb s r x E. injection E as _ <-. split; [exact H1|]. cbn [snd]. apply Forall_all_iff. destruct (snd td); [|exact Hb]. cbn [l_val]. now constructor.
Qed.
Lemma table_new_ok rs c : Forall (Forall (fun x : located cell => ok_cell (l_val x))) rs -> ok_table (table_new (enum_rows rs) c).
Proof.
  intro F. assert (E : t_cells (table_new (enum_rows rs) c) = enum_rows rs) by exact (ProofTable.cells_collect_id _ (ProofTable.enum_from_nodup 0 rs)).
  destruct (ProofEq4.recount (table_new (enum_rows rs) c)) as [K N]; [rewrite E; reflexivity|]. split; [exact K|]. split; [exact N|]. rewrite E.
  apply all_in. intros kv I. unfold enum_rows in I. apply in_flat_map in I as ([i cs] & I1 & I2). apply in_combine_r in I1.
  cbn [fst snd] in I2. unfold enum_row in I2. apply in_map_iff in I2 as ([j x] & <- & I2). apply in_combine_r in I2. cbn [snd].
  rewrite Forall_forall in F. specialize (F _ I1). rewrite Forall_forall in F. exact (F _ I2).
Qed.
Lemma row_ok : yields (p_row up dp) (Forall (fun x => ok_cell (l_val x))).
Proof.
  apply yields_terminated, yields_preceded, yields_terminated, yields_sep, yields_deeper. apply (yields_located _ ok_cell), yields_alt.
  repeat constructor; [eapply yields_pmap; [apply yields_any|intros; exact I]..|]. eapply yields_pmap; [apply yields_map_parser, inner_ok|]. auto.
Qed.
Lemma p_table_ok : yields (p_table up dp) (fun x => ok_table (l_val x)).
Proof.
  apply (yields_located _ ok_table), yields_verify. eapply (yields_bind _ _ (fun x => Forall (fun y => ok_cell (l_val y)) (snd x))).
  - intros s8 r8 x8 E. apply bind_ok in E as (s1 & y & E1 & E2). apply bind_ok in E2 as (s2 & z & E2 & E3). injection E3 as _ <-. exact (row_ok _ _ _ E2).
  - intros _ x Hx. eapply yields_bind; [apply yields_many0, yields_preceded, row_ok|]. intros _ rs Hrs s r y E. injection E as _ <-. apply table_new_ok. now constructor.
Qed.
Lemma nested_table_ok : yields (p_nested_table up dp) (fun x => ok_table (l_val x)).
Proof. eapply yields_pmap; [exact p_table_ok|]. intros x (K & N & C). split; [exact K|]. split; [exact N|exact C]. Qed.
Local Notation ok_b := (fun x : located block => ok_block (l_val x)).
Local Notation ok_t := (fun x : located list_item => ok_item (l_val x)).
Lemma list_item_ok nested : yields nested ok_b -> yields (list_item_ nested) (fun p => ok_t (snd p)).
Proof.
  intro H. unfold list_item_. do 2 (eapply yields_bind; [apply yields_any|]; intros _ ? _). intros s8 r8 x8 E. apply bind_ok in E as (s1 & rem & _ & E).
  apply bind_ok in E as (rem1 & item & E1 & E2). destruct (_ <? _); [discriminate|]. injection E2 as _ <-. cbn [snd]. revert E1.
  match goal with |- ?p rem = _ -> _ => enough (Y : yields p ok_t) by (intro E1; exact (Y _ _ _ E1)) end.
  apply (yields_located _ ok_item). eapply (yields_pmap _ _ (fun p => Forall ok_b (snd (snd p)))).
  - intros s' r' x' E. apply bind_ok in E as (s2 & ? & _ & E2). apply bind_ok in E2 as (s3 & z & E2 & E3). injection E3 as _ <-. cbn [snd]. revert E2.
    match goal with |- ?p s2 = _ -> _ => enough (Y : yields p (fun z => Forall ok_b (snd z))) by (intro E2; exact (Y _ _ _ E2)) end.
    unfold list_item_tail_. eapply yields_bind; [apply yields_any|]. intros _ todo _. eapply yields_bind; [apply yields_deeper, H|]. intros _ c Hc.
    eapply yields_bind; [apply yields_many0, yields_preceded, yields_deeper, H|]. intros _ cs Hcs s4 r4 x4 E. injection E as _ <-. cbn [snd]. now constructor.
  - intros p Hp. destruct p as [[? ?] [? ?]]. cbn in *. now apply Forall_all_iff.
Qed.
Lemma item_ty_ok t x : ok_item x -> ok_item (li_with_ty t x).
Proof. now destruct x. Qed.
Lemma item_pos_ok n x : ok_item x -> ok_item (li_with_pos n x).
Proof. now destruct x. Qed.
Lemma list_ok nested : yields nested ok_b -> yields (list_ nested) (fun x => ok_block (BList (l_val x))).
Proof.
  intro H. apply (yields_located _ (fun x => ok_block (BList x))). eapply yields_bind; [apply yields_deeper, (list_item_ok nested H)|]. intros _ ii Hi.
  eapply (yields_bind _ _ (Forall ok_t)).
  - apply yields_many0, yields_preceded. eapply yields_pmap; [apply yields_deeper, (list_item_ok nested H)|]. auto.
  - intros _ items Hs s r x E. injection E as _ <-. cbn [normalize_list ok_block]. apply Forall_all_iff. constructor; [exact Hi|]. apply Forall_map.
    assert (K : forall k, Forall ok_t (assign_pos k items)).
    { induction Hs as [|y l Hy _ IH]; intro k; cbn [assign_pos]; constructor; [now apply item_pos_ok|apply IH]. }
    eapply Forall_impl; [|exact (K 1)]. intros y Hy. now apply item_ty_ok.
Qed.
Lemma paragraph_ok nested : yields (paragraph_ up dp nested) (fun x => all ok_cont (l_val x)).
Proof.
  apply (yields_located _ (fun x => all ok_cont x)). eapply yields_weaken; [|intros x Hx; exact (Forall_all_iff _ _ Hx)].
  apply yields_many1, yields_preceded, yields_terminated. unfold paragraph_line. eapply yields_bind; [apply yields_any|]. intros _ _ _. exact inner_ok.
Qed.
Lemma nested_ok n : yields (nested_block_element up dp n) ok_b.
Proof.
  induction n as [|n IH]; [intros s r x E; discriminate|]. intros s r x E. cbn [nested_block_element] in E. revert E. revert s r x.
  match goal with |- forall s r x, ?f s = _ -> _ => change (yields f ok_b) end. apply yields_alt.
  repeat constructor; (eapply yields_pmap; [|intros x Hx; exact Hx]); try apply yields_any;
    [exact deflist_ok|exact (list_ok _ IH)|exact nested_table_ok|exact code_ok|exact (paragraph_ok _)].
Qed.
Lemma top_ok : yields (top_level_block_element up dp) ok_b.
Proof.
  apply yields_alt. repeat constructor; (eapply yields_pmap; [|intros x Hx; exact Hx]); try apply yields_any;
    [exact header_ok|exact deflist_ok| |exact p_table_ok|exact code_ok|].
  - intros s r x E. exact (list_ok _ (nested_ok _) _ _ _ E).
  - intros s r x E. exact (paragraph_ok _ _ _ _ E).
Qed.
Theorem parsed_ok input rest p : parse_page up dp input = Ok rest p -> ok_page p.
Proof.
  unfold parse_page. generalize (span_of input). intro s. revert s rest p. change (yields (p_page up dp) ok_page).
  eapply (yields_pmap _ _ (Forall (fun o => match o with Some b => ok_b b | None => True end))).
  - intros s8 r8 x8 E. apply bind_ok in E as (s1 & y & E1 & E2). destruct (_ =? 0); [|discriminate]. injection E2 as _ <-.
    refine (yields_many0 _ _ _ _ _ _ E1). apply yields_palt; (eapply yields_pmap; [|]); [apply yields_any|intros; exact I|exact top_ok|auto].
  - intros l Hl. apply Forall_all_iff. induction Hl as [|o l Ho _ IH]; [constructor|]. unfold flatten_opt in *. cbn [flat_map]. destruct o; [|exact IH]. now constructor.
Qed.
End Parsers.
