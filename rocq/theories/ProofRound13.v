(** Reading back the markers and the extent of list items. *)
From Verif Require Import Base ModelSpan ModelComb ModelAst ModelTable ModelLink ModelInline ModelBlock ModelElem
  SpecDoc SpecBlock SpecTree SpecSpan SpecEq SpecRound ProofBase ProofBytes ProofContract ProofPrim ProofInline ProofLink ProofText
  ProofBlock ProofFence ProofDefs ProofTable ProofList ProofPage ProofClaims2 ProofSpan ProofRound ProofRound2 ProofRound3
  ProofRound4 ProofRound5 ProofRound6 ProofRound7 ProofRound8 ProofRound9.
Local Open Scope nat_scope.

(** * Alternatives *)

Lemma alt_skip {A} (p : parser A) ps s n P : fails (p s) -> got s (alt ps s) n P -> got s (alt (p :: ps) s) n P.
Proof. cbn [alt]. apply got_palt_r. Qed.
Lemma alt_take {A} (p : parser A) ps s n P : got s (p s) n P -> got s (alt (p :: ps) s) n P.
Proof. cbn [alt]. apply got_palt_l. Qed.
Lemma got_value {A B} s (p : parser A) (b : B) n P : got s (p s) n P -> got s (value b p s) n (fun x => x = b).
Proof. intro H. unfold value. eapply got_pmap; [exact H|]. reflexivity. Qed.
Lemma fails_value {A B} s (p : parser A) (b : B) : fails (p s) -> fails (value b p s).
Proof. apply fails_pmap. Qed.

(** * Labels *)

Lemma count_while_all f (a r : str) : Forall (fun b => f b = true) a -> (forall c t, r = c :: t -> f c = false) ->
  count_while f (a ++ r) = length a.
Proof.
  intros F N. induction F as [|c a Hc F IH]; cbn [app count_while length].
  - destruct r as [|c t]; [reflexivity|]. cbn. now rewrite (N c t eq_refl).
  - rewrite Hc. now rewrite IH.
Qed.
Lemma while1_run f s a r : sees s (a ++ r) -> a <> [] -> Forall (fun b => f b = true) a -> (forall c t, r = c :: t -> f c = false) ->
  take_while1 f s = Ok (mv (length a) s) (tk (length a) s).
Proof.
  intros H Ne F N. unfold take_while1. rewrite (proj2 H), (count_while_all f a r F N).
  destruct (Nat.eqb_spec (length a) 0) as [E|_]; [destruct a; [congruence|discriminate]|].
  apply (split_run _ s (a ++ r) H). rewrite app_length. lia.
Qed.
Lemma while1_err f s c r : sees s (c :: r) -> f c = false -> take_while1 f s = Err.
Proof. intros H N. unfold take_while1. rewrite (proj2 H). cbn [count_while]. now rewrite N. Qed.
Lemma one_of_run cs s c r : sees s (c :: r) -> In c cs -> one_of cs s = Ok (mv 1 s) c.
Proof.
  intros H Hi. unfold one_of. rewrite (proj2 H).
  assert (existsb (beqb c) cs = true) as -> by (apply existsb_exists; exists c; split; [exact Hi|apply beqb_refl]).
  pose proof (sees_len _ _ H) as L. unfold remaining_len in L. destruct H as [[H _] _]. rewrite (proj2 (Nat.leb_le _ _) H) in L. cbn in L.
  unfold advance_start_by, mv. destruct (Nat.ltb_spec (sp_end s) (sp_start s + 1)); [lia|]. reflexivity.
Qed.
Lemma one_of_err cs s c r : sees s (c :: r) -> ~ In c cs -> one_of cs s = Err.
Proof.
  intros H Hi. unfold one_of. rewrite (proj2 H). destruct (existsb (beqb c) cs) eqn:E; [|reflexivity].
  apply existsb_exists in E as (x & Hx & E). apply beqb_eq in E. subst x. contradiction.
Qed.
Lemma one_ofs_run cs a : forall s c r, sees s (a ++ c :: r) -> a <> [] -> Forall (fun b => In b cs) a -> ~ In c cs ->
  got s (many1 (one_of cs) s) (length a) (fun _ => True).
Proof.
  assert (M : forall a s c r, sees s (a ++ c :: r) -> Forall (fun b => In b cs) a -> ~ In c cs ->
              got s (many0 (one_of cs) s) (length a) (fun _ => True)).
  { induction a0 as [|x a0 IH]; intros s c r H F N.
    - eapply got_weaken; [apply got_many0_nil; rewrite (one_of_err cs s c r H N); exact I|auto].
    - inversion F; subst. eapply got_weaken.
      + eapply (got_many0_cons s _ _ 1 (length a0) (fun _ => True) (fun _ => True) H); [cbn; lia|lia| |].
        * rewrite (one_of_run cs s x _ H) by auto. now apply got_ok.
        * apply (IH (mv 1 s) c r); auto. exact (sees_mv s [x] _ H).
      + auto. }
  intros s c r H Ne F N. destruct a as [|x a]; [congruence|]. inversion F; subst.
  eapply got_weaken; [eapply (got_many1 s _ 1 (length a) (fun _ => True) (fun _ => True))|auto].
  - rewrite (one_of_run cs s x _ H) by auto. now apply got_ok.
  - apply (M a (mv 1 s) c r); auto. exact (sees_mv s [x] _ H).
Qed.
Lemma ones_err cs s c r : sees s (c :: r) -> ~ In c cs -> fails (many1 (one_of cs) s).
Proof. intros H N. apply fails_many1. rewrite (one_of_err cs s c r H N). exact I. Qed.

Lemma label_head o l c t : label_ok o l -> l = c :: t ->
  match o with
  | ONumber => is_digit c = true
  | OPound => c = x23
  | OLowerRoman => In c roman_lower
  | OUpperRoman => In c roman_upper
  | OLowerAlpha => is_lower c = true /\ ~ In c roman_lower
  | OUpperAlpha => is_upper c = true /\ ~ In c roman_upper
  end.
Proof.
  intros [_ H] ->. destruct o; cbn in H.
  - now inversion H.
  - now injection H as -> _.
  - destruct H as [H N]. split; [now inversion H|exact (N c t eq_refl)].
  - destruct H as [H N]. split; [now inversion H|exact (N c t eq_refl)].
  - now inversion H.
  - now inversion H.
Qed.
Definition suffix_byte (u : suffix) : byte := match u with SufNone => x20 | SufPeriod => x2e | SufParen => x29 end.
Lemma suffix_head u : exists t, suffix_str u = suffix_byte u :: t.
Proof. destruct u; eexists; reflexivity. Qed.

(** The label of an item of an ordered list. *)
Definition p_label : parser ordered_ty :=
  alt [value ONumber digit1; value OLowerRoman (many1 (one_of (bs "ivxlcdm"))); value OUpperRoman (many1 (one_of (bs "IVXLEDM")));
       value OLowerAlpha (take_while1 is_lower); value OUpperAlpha (take_while1 is_upper)].
Ltac not_in := let H := fresh in cbn; intro H; repeat (destruct H as [H|H]; [discriminate H|]); exact H.
Lemma lower_not_roman_upper c : is_lower c = true -> ~ In c roman_upper.
Proof. intros H Hi. cbn in Hi. repeat (destruct Hi as [<-|Hi]; [discriminate H|]). exact Hi. Qed.
Lemma upper_not_roman_lower c : is_upper c = true -> ~ In c roman_lower.
Proof. intros H Hi. cbn in Hi. repeat (destruct Hi as [<-|Hi]; [discriminate H|]). exact Hi. Qed.
Lemma roman_lower_lower c : In c roman_lower -> is_lower c = true.
Proof. intros Hi. cbn in Hi. repeat (destruct Hi as [<-|Hi]; [reflexivity|]). destruct Hi. Qed.
Lemma roman_upper_upper c : In c roman_upper -> is_upper c = true.
Proof. intros Hi. cbn in Hi. repeat (destruct Hi as [<-|Hi]; [reflexivity|]). destruct Hi. Qed.
Lemma lower_not_digit c : is_lower c = true -> is_digit c = false.
Proof.
  unfold is_lower, is_digit. intro H. apply andb_prop in H as [H _]. apply Nat.leb_le in H.
  apply andb_false_intro2, Nat.leb_gt. lia.
Qed.
Lemma upper_not_digit c : is_upper c = true -> is_digit c = false.
Proof.
  unfold is_upper, is_digit. intro H. apply andb_prop in H as [H _]. apply Nat.leb_le in H.
  apply andb_false_intro2, Nat.leb_gt. lia.
Qed.
Lemma upper_not_lower c : is_upper c = true -> is_lower c = false.
Proof.
  unfold is_upper, is_lower. intro H. apply andb_prop in H as [_ H]. apply Nat.leb_le in H.
  apply andb_false_intro1, Nat.leb_gt. lia.
Qed.
Lemma label_run o l u s r : label_ok o l -> u <> SufNone -> o <> OPound -> sees s (l ++ suffix_str u ++ r) ->
  got s (p_label s) (length l) (fun x => x = o).
Proof.
  intros Hl Hu Ho H. destruct l as [|c l0] eqn:El; [destruct Hl; congruence|]. rewrite <- El in *.
  pose proof (label_head o l c l0 Hl El) as Hc. destruct Hl as [Ne Hl]. destruct (suffix_head u) as [t Et]. rewrite Et in H.
  assert (H0 : sees s (c :: skipn 1 (l ++ (suffix_byte u :: t) ++ r))) by (rewrite El in *; exact H).
  cbn [app] in H. unfold p_label.
  assert (Nx : forall f : byte -> bool, f x2e = false -> f x29 = false -> forall d q, suffix_byte u :: t ++ r = d :: q -> f d = false).
  { intros f F1 F2 d q E. injection E as <- _. destruct u; [congruence|exact F1|exact F2]. }
  destruct o; try congruence; cbn [label_ok] in Hl.
  - apply alt_take, (got_value _ _ _ _ (fun _ => True)). unfold digit1. rewrite (while1_run is_digit s l _ H Ne Hl); [now apply got_ok|].
    apply Nx; reflexivity.
  - destruct Hc as [Hc1 Hc2]. destruct Hl as [Hl _].
    apply alt_skip; [apply fails_value; unfold digit1; rewrite (while1_err _ s c _ H0) by (now apply lower_not_digit); exact I|].
    apply alt_skip; [apply fails_value; exact (ones_err _ s c _ H0 Hc2)|].
    apply alt_skip; [apply fails_value; apply (ones_err _ s c _ H0), lower_not_roman_upper, Hc1|].
    apply alt_take, (got_value _ _ _ _ (fun _ => True)). rewrite (while1_run is_lower s l _ H Ne Hl); [now apply got_ok|]. apply Nx; reflexivity.
  - destruct Hc as [Hc1 Hc2]. destruct Hl as [Hl _].
    apply alt_skip; [apply fails_value; unfold digit1; rewrite (while1_err _ s c _ H0) by (now apply upper_not_digit); exact I|].
    apply alt_skip; [apply fails_value; apply (ones_err _ s c _ H0), upper_not_roman_lower, Hc1|].
    apply alt_skip; [apply fails_value; exact (ones_err _ s c _ H0 Hc2)|].
    apply alt_skip; [apply fails_value; rewrite (while1_err _ s c _ H0) by (now apply upper_not_lower); exact I|].
    apply alt_take, (got_value _ _ _ _ (fun _ => True)). rewrite (while1_run is_upper s l _ H Ne Hl); [now apply got_ok|]. apply Nx; reflexivity.
  - apply alt_skip; [apply fails_value; unfold digit1; rewrite (while1_err _ s c _ H0) by (now apply lower_not_digit, roman_lower_lower); exact I|].
    apply alt_take, (got_value _ _ _ _ (fun _ => True)). apply (one_ofs_run _ l s _ _ H Ne Hl). destruct u; [congruence|not_in|not_in].
  - apply alt_skip; [apply fails_value; unfold digit1; rewrite (while1_err _ s c _ H0) by (now apply upper_not_digit, roman_upper_upper); exact I|].
    apply alt_skip; [apply fails_value; apply (ones_err _ s c _ H0), upper_not_roman_lower, roman_upper_upper, Hc|].
    apply alt_take, (got_value _ _ _ _ (fun _ => True)). apply (one_ofs_run _ l s _ _ H Ne Hl). destruct u; [congruence|not_in|not_in].
Qed.
Lemma tag_got t s r : sees s (t ++ r) -> got s (tag t s) (length t) (fun _ => True).
Proof. intro H. rewrite (tag_run t s r H). now apply got_ok. Qed.
Lemma label_byte o l c t : label_ok o l -> l = c :: t -> is_digit c || is_lower c || is_upper c || beqb c x23 = true.
Proof.
  intros H E. pose proof (label_head o l c t H E) as K. destruct o.
  - now rewrite K.
  - subst c. reflexivity.
  - destruct K as [K _]. rewrite K. now rewrite !orb_true_r.
  - destruct K as [K _]. rewrite K. now rewrite !orb_true_r.
  - apply roman_lower_lower in K. rewrite K. now rewrite !orb_true_r.
  - apply roman_upper_upper in K. rewrite K. now rewrite !orb_true_r.
Qed.
Lemma prefix_run t u pre s r : prefix_ok t u pre -> sees s (pre ++ r) ->
  got s (list_item_prefix s) (length pre) (fun x => x = (t, u)).
Proof.
  intros Hp H. unfold list_item_prefix. destruct t as [o|[| |]]; cbn [prefix_ok] in Hp; try contradiction.
  - destruct Hp as (l & -> & Hl & Ho). rewrite <- app_assoc in H. apply got_palt_r.
    { destruct l as [|c l0]; [destruct Hl; congruence|]. pose proof (label_byte o _ c l0 Hl eq_refl) as Hb.
      unfold unordered_list_item_prefix. apply fails_pmap, fails_palt; apply fails_value; rewrite tag_none; try exact I;
        rewrite (proj2 H); intros q E; injection E as -> _; discriminate Hb. }
    unfold ordered_list_item_prefix. eapply got_pmap with (P := fun x => x = (o, u)); [|intros x ->; reflexivity].
    destruct (suffix_head u) as [t Et]. fold p_label. destruct u.
    + assert (o = OPound) as -> by now apply Ho. destruct Hl as [_ Hl]. subst l. cbn [suffix_str] in *. apply got_palt_r.
      * unfold pair. apply fails_bind. unfold p_label. assert (H0 : sees s (x23 :: bs " " ++ r)) by exact H. cbn [alt].
        repeat (apply fails_palt; [apply fails_value; first [rewrite (while1_err _ s x23 _ H0) by reflexivity; exact I
          | unfold digit1; rewrite (while1_err _ s x23 _ H0) by reflexivity; exact I
          | apply (ones_err _ s x23 _ H0); not_in]|]). exact I.
      * unfold pair. change (length (bs "#" ++ bs " ")) with (1 + (1 + 0)).
        eapply (got_bind s _ 1 (fun x => x = OPound)); [apply (got_value s _ _ _ (fun _ => True)); exact (tag_got (bs "#") s _ H)|].
        intros x ->. eapply (got_bind _ _ 1 (fun x => x = SufNone)); [apply (got_value _ _ _ _ (fun _ => True)); exact (tag_got (bs " ") _ _ (sees_mv s (bs "#") _ H))|].
        intros x ->. now apply got_ret.
    + apply got_palt_l. unfold pair. rewrite app_length. change (length (suffix_str SufPeriod)) with (2 + 0).
      eapply (got_bind s _ (length l) (fun x => x = o)); [apply (label_run o l SufPeriod s r); auto; [discriminate|intros ->; now destruct Ho as [Ho _]; discriminate Ho]|].
      intros x ->. eapply (got_bind _ _ 2 (fun x => x = SufPeriod)).
      * apply got_palt_l, (got_value _ _ _ _ (fun _ => True)). exact (tag_got (bs ". ") _ _ (sees_mv s l _ H)).
      * intros x ->. now apply got_ret.
    + apply got_palt_l. unfold pair. rewrite app_length. change (length (suffix_str SufParen)) with (2 + 0).
      eapply (got_bind s _ (length l) (fun x => x = o)); [apply (label_run o l SufParen s r); auto; [discriminate|intros ->; now destruct Ho as [Ho _]; discriminate Ho]|].
      intros x ->. eapply (got_bind _ _ 2 (fun x => x = SufParen)).
      * apply got_palt_r; [apply fails_value; rewrite tag_none; [exact I|]; rewrite (proj2 (sees_mv s l _ H)); discriminate|].
        apply (got_value _ _ _ _ (fun _ => True)). exact (tag_got (bs ") ") _ _ (sees_mv s l _ H)).
      * intros x ->. now apply got_ret.
  - destruct Hp as [-> ->]. apply got_palt_l. unfold unordered_list_item_prefix.
    eapply got_pmap with (P := fun x => x = UHyphen); [|intros x ->; reflexivity].
    apply got_palt_l, (got_value _ _ _ _ (fun _ => True)). exact (tag_got (bs "- ") _ _ H).
  - destruct Hp as [-> ->]. apply got_palt_l. unfold unordered_list_item_prefix.
    eapply got_pmap with (P := fun x => x = UAsterisk); [|intros x ->; reflexivity].
    apply got_palt_r; [apply fails_value; rewrite tag_none; [exact I|]; rewrite (proj2 H); discriminate|].
    apply (got_value _ _ _ _ (fun _ => True)). exact (tag_got (bs "* ") _ _ H).
Qed.

(** * Statuses *)

Lemma todo_run todo l s k : sees s (todo_str todo ++ l ++ b_nl :: k) ->
  (todo = None -> forall t r, l <> todo_str (Some t) ++ r) ->
  got s (opt p_todo_status s) (length (todo_str todo)) (fun x => x = todo).
Proof.
  intros H N. destruct todo as [t|].
  - assert (E : exists b, todo_str (Some t) = bs "[" ++ [b] ++ bs "] " /\
      forall s' q, sees s' ([b] ++ bs "] " ++ q) ->
        got s' (alt [value TodoIncomplete (tag (bs " ")); value TodoPartial1 (tag (bs "."));
                       value TodoPartial2 (tag (bs "o")); value TodoPartial3 (tag (bs "O"));
                       value TodoComplete (tag (bs "X")); value TodoRejected (tag (bs "-"))] s') 1 (fun x => x = t)).
    { destruct t; eexists; (split; [reflexivity|]); intros s' q Hq;
        repeat first [apply alt_take, (got_value _ _ _ _ (fun _ => True)); eapply tag_got; exact Hq
                     |apply alt_skip; [apply fails_value; rewrite tag_none; [exact I|]; rewrite (proj2 Hq); discriminate|]]. }
    destruct E as (b & E & G). rewrite E in H |- *. rewrite <- !app_assoc in H.
    eapply got_weaken; [apply got_opt_some with (P := fun x => x = t)|intros x (y & -> & ->); reflexivity].
    unfold p_todo_status. rewrite (tag_run (bs "[") s _ H). cbn [bind]. apply sees_mv in H.
    change (length (bs "[" ++ [b] ++ bs "] ")) with (1 + (1 + (2 + 0))). change (length (bs "[")) with 1 in *. apply got_shift.
    eapply (got_bind _ _ 1 (fun x => x = t)); [exact (G _ _ H)|]. intros x ->. pose proof (sees_mv _ [b] _ H) as H1. change (length [b]) with 1 in H1.
    rewrite (tag_run (bs "] ") _ _ H1). cbn [bind]. now apply got_ok.
  - cbn [todo_str app length] in *. apply got_opt_none. unfold p_todo_status.
    assert (Z : forall t q, remaining s <> todo_str (Some t) ++ q).
    { intros t q E. rewrite (proj2 H) in E. symmetry in E. apply nl_free_prefix in E as [r' E]; [exact (N eq_refl t r' E)|destruct t; nonl|right; eauto]. }
    destruct (starts_with (bs "[") (remaining s)) eqn:S1; [|rewrite tag_err by exact S1; exact I].
    apply starts_with_spec in S1 as [r1 E1]. assert (H1 : sees s (bs "[" ++ r1)) by (split; [apply H|exact E1]).
    rewrite (tag_run _ _ _ H1). cbn [bind]. pose proof (sees_mv _ _ _ H1) as H2.
    match goal with |- fails (bind ?x _) => set (z := x) end.
    assert (G : forall q, z = q -> fails (do (s2, a) <- q;; do (s3, _) <- tag (bs "] ") s2;; Ok s3 a)); [|now apply G].
    intros q Eq. unfold z in Eq. clear z. cbn [alt] in Eq.
    repeat match type of Eq with
    | palt (value ?t (tag ?w)) ?ps ?s0 = _ =>
        destruct (starts_with w (remaining s0)) eqn:S2;
        [ apply starts_with_spec in S2 as [r2 E2]; assert (H3 : sees s0 (w ++ r2)) by (split; [apply H2|exact E2]);
          unfold palt at 1, value at 1, pmap at 1 in Eq; rewrite (tag_run _ _ _ H3) in Eq; cbn [bind] in Eq; subst q; cbn [bind];
          pose proof (sees_mv _ _ _ H3) as H4; destruct (starts_with (bs "] ") (remaining (mv (length w) s0))) eqn:S3;
          [ apply starts_with_spec in S3 as [r3 E3]; exfalso; apply (Z t r3); rewrite E1, <- (proj2 H2), E2;
            rewrite (proj2 H4) in E3; rewrite E3; reflexivity
          | rewrite tag_err by exact S3; exact I ]
        | unfold palt at 1, value at 1, pmap at 1 in Eq; rewrite (tag_err _ _ S2) in Eq; cbn [bind] in Eq; clear S2 ]
    end.
    subst q. exact I.
Qed.

(** * The lines of an item *)

Lemma peek_indent s : span_ok s -> indentation_level false s = Ok s (count_while is_space (remaining s)).
Proof.
  intro Hs. destruct (blanks_split (remaining s)) as (a & r & E & B & N). unfold indentation_level, pmap, peek.
  assert (S1 : sees s (a ++ r)) by (split; auto). rewrite (space0_run s a r S1 B N). cbn [bind].
  rewrite (sees_len _ _ (sees_tk _ _ _ S1)), E, (count_blanks a r B N). reflexivity.
Qed.
Lemma eat_indent s a r : sees s (a ++ r) -> blanks a -> nonblank_head r -> indentation_level true s = Ok (mv (length a) s) (length a).
Proof.
  intros H B N. unfold indentation_level, pmap. rewrite (space0_run s a r H B N). cbn [bind].
  now rewrite (sees_len _ _ (sees_tk _ _ _ H)).
Qed.
Lemma count_ind a r : blanks a -> length a <= count_while is_space (a ++ r).
Proof. intro B. induction B as [|c a S B IH]; cbn [app count_while length]; [lia|]. rewrite S. lia. Qed.

Definition item_line (i : nat) (l : str) : Prop := no_nl l /\ no_cr_end l /\ exists a b, l = a ++ b /\ blanks a /\ i < length a.
Definition outside (i : nat) (k : str) : Prop := count_while is_space k <= i.
Definition more_lines (i : nat) : parser (list span) :=
  many0 (preceded (verify (indentation_level false) (fun l => i <? l)) rest_of_line).
Lemma more_run i ls : forall s k, sees s (nl_lines ls ++ k) -> Forall (item_line i) ls -> outside i k ->
  got s (more_lines i s) (length (nl_lines ls)) (fun _ => True).
Proof.
  induction ls as [|l ls IH]; intros s k H F O; unfold more_lines.
  - cbn [nl_lines flat_map app length] in *. eapply got_weaken; [apply got_many0_nil|auto]. unfold preceded, verify. apply fails_bind.
    rewrite (peek_indent s (proj1 H)). cbn [bind]. rewrite (proj2 H). assert (i <? count_while is_space k = false) as -> by now apply Nat.ltb_ge. exact I.
  - inversion F as [|? ? (N1 & N2 & a & b & E & B & L) Fs]; subst. cbn [nl_lines flat_map] in *. fold (nl_lines ls) in *. rewrite <- !app_assoc in H.
    assert (H0 : sees s ((a ++ b) ++ b_nl :: nl_lines ls ++ k)) by (rewrite <- app_assoc; exact H).
    eapply got_n; [eapply got_weaken; [eapply (got_many0_cons s _ _ (length (a ++ b) + 1) (length (nl_lines ls)) (fun _ => True) (fun _ => True) H0)|auto]|].
    + rewrite (app_length (a ++ b)). cbn. lia.
    + lia.
    + unfold preceded, verify. rewrite (peek_indent s (proj1 H)). cbn [bind]. rewrite (proj2 H).
      assert (i <? count_while is_space (a ++ b ++ [b_nl] ++ nl_lines ls ++ k) = true) as ->.
      { apply Nat.ltb_lt. eapply Nat.lt_le_trans; [exact L|now apply count_ind]. }
      cbn [bind]. rewrite (rest_of_line_run s (a ++ b) _ H0); [now apply got_ok|]. apply whole_nl; auto.
    + apply (IH _ k); auto. exact (sees_cons _ _ _ _ H0).
    + rewrite !(app_length _ (nl_lines ls)), (app_length (a ++ b)). reflexivity.
Qed.
Lemma region_run i l ls s k : sees s (nl_lines (l :: ls) ++ k) -> no_nl l -> no_cr_end l -> Forall (item_line i) ls -> outside i k ->
  got s (recognize (pair rest_of_line (more_lines i)) s) (length (nl_lines (l :: ls))) (fun x => x = tk (length (nl_lines (l :: ls))) s).
Proof.
  intros H N1 N2 F O. cbn [nl_lines flat_map] in *. fold (nl_lines ls) in *. rewrite <- !app_assoc in H.
  assert (G : got s (pair rest_of_line (more_lines i) s) (length ((l ++ [b_nl]) ++ nl_lines ls)) (fun _ => True)).
  { unfold pair. rewrite !app_length. change (length [b_nl]) with 1. rewrite (rest_of_line_run s l _ H) by (apply whole_nl; auto). cbn [bind].
    apply got_shift. pose proof (more_run i ls _ k (sees_cons _ _ _ _ H) F O) as G. unfold got in *.
    destruct (more_lines i (mv (length l + 1) s)); cbn [bind]; try contradiction; [|exact I]. destruct G as [-> _]. auto. }
  unfold recognize. set (m := length ((l ++ [b_nl]) ++ nl_lines ls)) in *.
  destruct (pair rest_of_line (more_lines i) s) as [s1 x| | |]; cbn [bind]; cbn in G; try contradiction; [|exact I].
  destruct G as [-> _]. cbn [mv sp_start]. destruct (Nat.ltb_spec (sp_start s + m) (sp_start s)); [lia|].
  split; [reflexivity|]. unfold advance_end_by, tk. do 2 f_equal. cbn. lia.
Qed.
