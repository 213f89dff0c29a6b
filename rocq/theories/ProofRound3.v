(** Reading back dividers, fenced blocks, placeholders and quotations. *)
From Verif Require Import Base ModelSpan ModelComb ModelAst ModelTable ModelLink ModelInline ModelBlock
  SpecDoc SpecBlock SpecTree SpecSpan SpecRound ProofBase ProofBytes ProofContract ProofPrim ProofInline ProofLink ProofText
  ProofBlock ProofFence ProofDefs ProofTable ProofList ProofPage ProofClaims2 ProofSpan ProofRound ProofRound2.
Local Open Scope nat_scope.

Lemma got_n {A} s (r : res A) n m P : got s r n P -> n = m -> got s r m P.
Proof. now intros H <-. Qed.
Lemma got_ret {A} s (x : A) (P : A -> Prop) : P x -> got s (Ok s x) 0 P.
Proof. intro H. cbn. split; [now rewrite mv_0|exact H]. Qed.
Lemma remaining_tk s a r : sees s (a ++ r) -> remaining (tk (length a) s) = a.
Proof. intro H. apply sees_tk in H. apply H. Qed.
Lemma map_parser_run {B} (p : parser span) (q : parser B) s n x s2 :
  p s = Ok (mv n s) (tk n s) -> q (tk n s) = Ok s2 x -> map_parser p q s = Ok (mv n s) x.
Proof. intros E F. unfold map_parser. rewrite E. cbn [bind]. rewrite F. reflexivity. Qed.
Lemma map_cow_run (p : parser span) s a r :
  sees s (a ++ r) -> p s = Ok (mv (length a) s) (tk (length a) s) -> map_parser p cow_str s = Ok (mv (length a) s) a.
Proof.
  intros H E. eapply map_parser_run; [exact E|]. unfold cow_str. rewrite (remaining_tk s a r H). reflexivity.
Qed.
Lemma sees_cons s a c r : sees s (a ++ c :: r) -> sees (mv (length a + 1) s) r.
Proof.
  intro H. replace (a ++ c :: r) with ((a ++ [c]) ++ r) in H by now rewrite <- app_assoc.
  apply sees_mv in H. rewrite app_length in H. exact H.
Qed.
Lemma sees_app s a b r : sees s (a ++ b ++ r) -> sees (mv (length a + length b) s) r.
Proof. rewrite app_assoc. intro H. apply sees_mv in H. now rewrite app_length in H. Qed.
Lemma lstart_line s a r : sees s (a ++ b_nl :: r) -> lstart (mv (length a + 1) s).
Proof.
  intro H. replace (a ++ b_nl :: r) with ((a ++ [b_nl]) ++ r) in H by now rewrite <- app_assoc.
  pose proof (lstart_mv s a r H) as L. rewrite app_length in L. exact L.
Qed.
Lemma blanks_nil : blanks []. Proof. constructor. Qed.
Lemma no_nl_app a b : no_nl (a ++ b) <-> no_nl a /\ no_nl b.
Proof. unfold no_nl. rewrite in_app_iff. tauto. Qed.
Lemma eol_run_line s r : sees s r -> line_end r -> end_of_line_or_input s = Ok (mv (match r with [] => 0 | _ => 1 end) s) tt.
Proof. intros H [->|[r' ->]]; [now apply eol_run_end|now apply (eol_run_nl s r')]. Qed.

(** * Dividers *)

Lemma repeat_split_unique (c : byte) n m r r' : repeat c n ++ r = repeat c m ++ r' ->
  (forall x, r <> c :: x) -> (forall x, r' <> c :: x) -> n = m /\ r = r'.
Proof.
  revert m. induction n as [|n IH]; intros [|m] E N N'; cbn in E; auto.
  - exfalso. eapply N. exact E.
  - exfalso. eapply N'. symmetry. exact E.
  - injection E as E. apply IH in E as [-> ->]; auto.
Qed.
Lemma take_char_run c n s r : sees s (repeat c n ++ r) -> c <> b_nl -> c <> b_cr -> (forall x, r <> c :: x) ->
  take_line_while (pchar c) s = Ok (mv n s) (tk n s).
Proof.
  intros [H E] N1 N2 N. destruct (take_char_spec c s H N1 N2) as (m & [M T] & r' & E' & N'). rewrite E in E'.
  apply repeat_split_unique in E' as [<- _]; auto.
Qed.
Lemma take_char1_run c n s r : sees s (repeat c n ++ r) -> 0 < n -> c <> b_nl -> c <> b_cr -> (forall x, r <> c :: x) ->
  take_line_while1 (pchar c) s = Ok (mv n s) (tk n s).
Proof.
  intros H Hn N1 N2 N. unfold take_line_while1, verify. rewrite (take_char_run c n s r) by auto. cbn [bind].
  unfold non_empty, sp_is_empty. pose proof (sees_tk s (repeat c n) r H) as T. rewrite repeat_length in T.
  rewrite (sees_len _ _ T), repeat_length. destruct n; [lia|reflexivity].
Qed.
Lemma divider_run s k : sees s (bs "----" ++ b_nl :: k) -> lstart s -> got s (p_divider s) 5 (fun _ => True).
Proof.
  intros H B. eapply got_n; [apply (got_located _ _ 5 (fun _ => True))|reflexivity].
  rewrite (bol_run s (sees_ok _ _ H) B). cbn [bind]. unfold verify.
  rewrite (take_char1_run x2d 4 s (b_nl :: k) H) by (try lia; discriminate). cbn [bind].
  assert (remaining_len (tk 4 s) = 4) as -> by exact (sees_len _ _ (sees_tk _ (bs "----") _ H)). cbn [Nat.leb bind].
  rewrite (eol_run_nl (mv 4 s) k); [|exact (sees_mv s (bs "----") _ H)]. cbn [bind]. rewrite mv_mv. now apply got_ok.
Qed.

(** * Fenced blocks *)

Definition fence_end (f : str) : parser nat :=
  fun s =>
    do (s1, n) <- map_parser space0 count_remaining_bytes s;;
    do (s2, _) <- tag f s1;;
    do (s3, _) <- space0 s2;;
    do (s4, _) <- end_of_line_or_input s3;;
    Ok s4 n.
Lemma fence_math : end_of_math_block = fence_end (bs "}}$"). Proof. reflexivity. Qed.
Lemma fence_code : code_block_end = fence_end (bs "}}}"). Proof. reflexivity. Qed.
Lemma count_space_run s a r : sees s (a ++ r) -> blanks a -> nonblank_head r ->
  map_parser space0 count_remaining_bytes s = Ok (mv (length a) s) (length a).
Proof.
  intros H B N. eapply map_parser_run; [now apply (space0_run s a r)|]. unfold count_remaining_bytes.
  rewrite (sees_len _ _ (sees_tk _ _ _ H)). reflexivity.
Qed.
Lemma fence_end_run ind f s k : sees s (ind ++ f ++ b_nl :: k) -> blanks ind -> nonblank_head (f ++ b_nl :: k) ->
  fence_end f s = Ok (mv (length (ind ++ f) + 1) s) (length ind).
Proof.
  intros H B N. unfold fence_end. rewrite (count_space_run s ind (f ++ b_nl :: k) H B N). cbn [bind]. apply sees_mv in H.
  rewrite (tag_run f _ (b_nl :: k) H). cbn [bind]. pose proof (sees_mv _ _ _ H) as H1.
  rewrite (space0_none _ _ H1) by (apply line_end_head; right; eauto). cbn [bind].
  rewrite (eol_run_nl _ _ H1). cbn [bind]. rewrite !mv_mv, app_length. do 2 f_equal. lia.
Qed.
(** A line that does not close a block does not close it when indented. *)
Lemma fenced_ind ind f l : blanks ind -> no_lead f -> f <> [] -> fenced_line f l -> fenced_line f (ind ++ l).
Proof.
  intros B Lf Ne (N1 & N2 & N3). split; [|split].
  - intro Hi. apply in_app_or in Hi as [Hi|Hi]; auto. eapply Forall_forall in B; eauto. discriminate.
  - intros x E. destruct (list_eq_dec byte_eq_dec l []) as [->|Nl].
    + rewrite app_nil_r in E. rewrite E in B. apply Forall_app in B as [_ B]. inversion B. discriminate.
    + destruct (exists_last Nl) as (l' & c & ->). rewrite app_assoc in E. apply app_inj_tail in E as [_ ->]. now apply (N2 l').
  - intros (a & b & E & Ba & Bb). destruct f as [|c f]; [congruence|]. pose proof (Lf c f eq_refl) as Sc. apply N3.
    cbn [app] in E. apply app_eq_app in E as (m & [[E1 E2]|[E1 E2]]).
    + destruct m as [|x m].
      * exists [], b. rewrite app_nil_l in E2. split; [now rewrite <- E2|]. split; [constructor|exact Bb].
      * cbn in E2. injection E2 as -> _. rewrite E1 in B. apply Forall_app in B as [_ B]. inversion B. congruence.
    + rewrite E1 in Ba. apply Forall_app in Ba as [_ Ba]. exists m, b. auto.
Qed.
Lemma fence_end_err f s l k : sees s (l ++ b_nl :: k) -> no_nl l -> no_cr_end l -> no_nl f -> no_lead f -> f <> [] ->
  ~ closing_line f l -> fails (fence_end f s).
Proof.
  intros H Nl Cl Nf Lf Ne Nc. destruct (blanks_split l) as (a & r & E & B & N).
  assert (N' : nonblank_head (r ++ b_nl :: k)).
  { intros c t Ht. destruct r as [|x r]; cbn in Ht; injection Ht as <- _; [reflexivity|]. eapply N. reflexivity. }
  rewrite E, <- app_assoc in H. unfold fence_end. rewrite (count_space_run s a _ H B N'). cbn [bind].
  pose proof (sees_mv _ _ _ H) as H1. destruct (starts_with f (r ++ b_nl :: k)) eqn:S.
  2: { rewrite tag_err by (destruct H1 as [_ ->]; exact S). exact I. }
  apply starts_with_spec in S as [r1 S]. assert (Hr : exists r2, r = f ++ r2 /\ r1 = r2 ++ b_nl :: k).
  { symmetry in S. destruct (nl_free_prefix f r1 r (b_nl :: k) S Nf) as [r2 ->]; [right; eauto|].
    exists r2. split; auto. rewrite <- app_assoc in S. now apply app_inv_head in S. }
  destruct Hr as (r2 & -> & ->). rewrite <- app_assoc in H1. rewrite (tag_run f _ _ H1). cbn [bind].
  pose proof (sees_mv _ _ _ H1) as H2. destruct (blanks_split r2) as (b & r3 & E3 & B3 & N3).
  destruct r3 as [|c r3]; [exfalso; apply Nc; exists a, b; rewrite app_nil_r in E3; subst r2; auto|].
  rewrite E3, <- app_assoc in H2. rewrite (space0_run _ b _ H2 B3); [|intros x t Ht; eapply N3; cbn in Ht; injection Ht as <- _; reflexivity].
  cbn [bind]. pose proof (sees_mv _ _ _ H2) as H3.
  assert (Hin : no_nl (c :: r3)).
  { subst l r2. rewrite !no_nl_app in Nl. tauto. }
  unfold end_of_line_or_input, sp_is_empty. rewrite (sees_len _ _ H3). cbn [length app Nat.eqb].
  rewrite line_ending_err; [exact I| |]; destruct H3 as [_ ->]; intros q Hq; cbn in Hq.
  - injection Hq as -> _. apply Hin. now left.
  - injection Hq as -> Hq. destruct r3 as [|d r3].
    + apply (Cl (a ++ f ++ b)). subst l r2. now rewrite <- !app_assoc.
    + cbn in Hq. injection Hq as -> _. apply Hin. right. now left.
Qed.
Lemma fenced_run ind f ls s k : blanks ind -> no_nl f -> no_lead f -> f <> [] -> lstart s -> Forall (fenced_line f) ls ->
  sees s (nl_lines (map (app ind) ls) ++ ind ++ f ++ b_nl :: k) ->
  got s (many0 (preceded (pnot (fence_end f)) (map_parser any_line cow_str)) s) (length (nl_lines (map (app ind) ls)))
    (fun x => x = map (app ind) ls).
Proof.
  intros Bi Nf Lf Ne B F. revert s B. induction F as [|l ls Fl F IH]; intros s B H.
  - cbn [map nl_lines flat_map length app] in *. apply got_many0_nil. unfold preceded. apply fails_bind.
    apply (fails_pnot _ _ (length (ind ++ f) + 1) (fun x => x = length ind)). apply got_eq, (fence_end_run ind f s k H Bi).
    intros c t E. destruct f as [|x f]; [congruence|]. cbn in E. injection E as <- _. eapply Lf. reflexivity.
  - apply (fenced_ind ind f l Bi Lf Ne) in Fl as (N1 & N2 & N3).
    cbn [map nl_lines flat_map] in *. fold (nl_lines (map (app ind) ls)) in *. set (l' := ind ++ l) in *. set (T := nl_lines (map (app ind) ls)) in *.
    assert (H1 : sees s (l' ++ b_nl :: T ++ ind ++ f ++ b_nl :: k)) by (rewrite <- !app_assoc in H; exact H).
    eapply got_n.
    + eapply got_weaken.
      * eapply (got_many0_cons s _ _ (length l' + 1) _ (fun x => x = l') (fun x => x = map (app ind) ls) H1); [|lia| |].
        -- rewrite !app_length. cbn. lia.
        -- unfold preceded. change (length l' + 1) with (0 + (length l' + 1)).
           eapply got_bind; [apply got_pnot; now apply (fence_end_err f s l' (T ++ ind ++ f ++ b_nl :: k))|].
           intros _ _. rewrite mv_0. apply got_eq.
           unfold map_parser, any_line. rewrite (bol_run s (sees_ok _ _ H) B). cbn [bind].
           assert (W : whole_line l' (b_nl :: T ++ ind ++ f ++ b_nl :: k)) by (split; auto; split; [right; eauto|auto]).
           rewrite (rest_of_line_run s l' _ H1 W). cbn [bind]. unfold cow_str. rewrite (remaining_tk _ _ _ H1). reflexivity.
        -- apply IH; [now apply (lstart_line s l' _ H1)|]. now apply (sees_cons s l' _ _ H1).
      * intros x (y & z & -> & -> & ->). reflexivity.
    + rewrite !app_length. cbn. lia.
Qed.
Lemma leading_blanks ind l fuel : blanks ind -> length ind <= fuel -> length ind <= leading_uws fuel (ind ++ l).
Proof.
  intro B. revert fuel. induction B as [|c ind S B IH]; intros fuel L; [cbn; lia|]. destruct fuel as [|fuel]; [cbn in L; lia|].
  cbn [length app leading_uws] in *. assert (uws_len (c :: ind ++ l) = 1) as -> by (destruct c; try discriminate; reflexivity).
  cbn [skipn]. specialize (IH fuel ltac:(lia)). lia.
Qed.
(** The indentation of all lines is removed; the code panics where it ends
    inside a character. *)
Lemma dedent_ind ind ls : blanks ind -> dedent (length ind) (map (app ind) ls) = Some ls \/ dedent (length ind) (map (app ind) ls) = None.
Proof.
  intro B. induction ls as [|l ls IH]; [now left|]. cbn [map dedent]. unfold dedent_line, str_from.
  assert (L : Nat.min (count_leading_uws (ind ++ l)) (length ind) = length ind).
  { apply Nat.min_r. unfold count_leading_uws. apply leading_blanks; auto. rewrite app_length. lia. }
  rewrite L. assert (length (ind ++ l) <? length ind = false) as -> by (apply Nat.ltb_ge; rewrite app_length; lia).
  rewrite skipn_app, Nat.sub_diag, skipn_all. cbn [skipn app].
  destruct l as [|b l]; [|destruct ((0 <? length ind) && is_cont b); [now right|]]; destruct IH as [-> | ->]; auto.
Qed.
Lemma ind_nil (ls : list str) : map (app []) ls = ls.
Proof. induction ls as [|l ls IH]; [reflexivity|]. cbn [map]. rewrite IH. reflexivity. Qed.

Lemma fence_math_facts : no_nl (bs "}}$") /\ no_lead (bs "}}$") /\ bs "}}$" <> [].
Proof. split; [intros H; cbn in H; intuition discriminate|]. split; [intros c r H; injection H as <- _; reflexivity|discriminate]. Qed.
Lemma fence_code_facts : no_nl (bs "}}}") /\ no_lead (bs "}}}") /\ bs "}}}" <> [].
Proof. split; [intros H; cbn in H; intuition discriminate|]. split; [intros c r H; injection H as <- _; reflexivity|discriminate]. Qed.


Lemma nl_lines_app a b : nl_lines (a ++ b) = nl_lines a ++ nl_lines b.
Proof. apply flat_map_app. Qed.
Lemma lit_head (f r : str) c t : f = c :: t -> is_space c = false -> nonblank_head (f ++ r).
Proof. intros -> H x y E. cbn in E. injection E as <- _. exact H. Qed.

Lemma math_env_run s e r : sees s (env_text e ++ b_nl :: r) -> env_fine e ->
  got s (opt (map_parser (delimited (pchar x25) (take_line_until1 (bs "%")) (pchar x25)) cow_str) s)
    (length (env_text e)) (fun x => x = e).
Proof.
  intros H F. destruct e as [e|]; cbn [env_text env_fine] in *.
  - destruct F as (F1 & F2 & F3).
    assert (H0 : sees s (x25 :: e ++ x25 :: b_nl :: r)).
    { rewrite <- !app_assoc in H. exact H. }
    assert (E : map_parser (delimited (pchar x25) (take_line_until1 (bs "%")) (pchar x25)) cow_str s
                = Ok (mv (length (bs "%" ++ e ++ bs "%")) s) e).
    { unfold map_parser, delimited, preceded, terminated. rewrite (pchar_run x25 s _ H0). cbn [bind].
      assert (H1 : sees (mv 1 s) (e ++ x25 :: b_nl :: r)) by exact (sees_mv s [x25] _ H0).
      rewrite (tlu1_run (bs "%") (mv 1 s) e (x25 :: b_nl :: r) H1 F1); [|discriminate|cbn; lia|].
      2: { apply first_stop_byte; auto. discriminate. }
      cbn [bind]. pose proof (sees_mv _ _ _ H1) as H2. rewrite (pchar_run x25 _ _ H2). cbn [bind].
      unfold cow_str. rewrite (remaining_tk _ _ _ H1). cbn [bind]. rewrite !mv_mv. do 2 f_equal.
      rewrite !app_length. cbn. lia. }
    unfold opt. rewrite E. apply got_ok. reflexivity.
  - cbn [app length] in *. apply got_opt_none. unfold map_parser, delimited, preceded. rewrite pchar_err; [exact I|].
    intros t Et. destruct H as [_ Hr]. rewrite Hr in Et. discriminate.
Qed.
Lemma math_run_ind ind s m k : sees s (nl_lines (map (app ind) (math_lines m)) ++ k) -> blanks ind -> env_fine (mb_env m) ->
  Forall (fenced_line (bs "}}$")) (mb_lines m) ->
  got s (p_math_block s) (length (nl_lines (map (app ind) (math_lines m)))) (fun x => l_val x = m).
Proof.
  intros H Bi Fe Fl. destruct m as [ls e]. cbn [mb_lines mb_env] in *. unfold math_lines in *. cbn [mb_lines mb_env map nl_lines flat_map] in *.
  rewrite map_app in *. fold (nl_lines (map (app ind) ls ++ map (app ind) [bs "}}$"])) in *. rewrite nl_lines_app in *.
  set (T := nl_lines (map (app ind) ls) ++ ind ++ bs "}}$" ++ b_nl :: k).
  assert (H0 : sees s (ind ++ bs "{{$" ++ env_text e ++ b_nl :: T)).
  { cbn [map nl_lines flat_map] in H. rewrite <- !app_assoc in H. exact H. }
  set (h := length ind + (3 + (length (env_text e) + 1))).
  apply (got_located s _ _ (fun x => x = MathBlock ls e)).
  eapply got_n.
  - eapply (got_bind s _ h (fun b => b = (length ind, e))).
    + unfold beginning_of_math_block.
      rewrite (count_space_run s ind _ H0 Bi); [|now apply (lit_head (bs "{{$") _ x7b (bs "{$"))].
      cbn [bind]. pose proof (sees_mv _ _ _ H0) as H0'. rewrite (tag_run (bs "{{$") _ _ H0'). cbn [bind].
      change (length (bs "{{$")) with 3. pose proof (sees_mv _ (bs "{{$") _ H0') as H1. change (length (bs "{{$")) with 3 in H1.
      pose proof (math_env_run _ _ _ H1 Fe) as R. unfold got in R |- *.
      destruct (opt (map_parser (delimited (pchar x25) (take_line_until1 (bs "%")) (pchar x25)) cow_str) (mv 3 (mv (length ind) s))) as [s4 x| | |]; cbn [bind]; try contradiction; [|exact I].
      destruct R as [-> ->]. pose proof (sees_mv _ _ _ H1) as H2.
      rewrite (space0_none _ _ H2) by (apply line_end_head; right; eauto). cbn [bind].
      rewrite (line_ending_run _ _ H2). cbn [bind]. rewrite !mv_mv. split; [f_equal; unfold h; lia|reflexivity].
    + intros b ->. cbn [fst snd].
      assert (H0'' : sees s ((ind ++ bs "{{$" ++ env_text e) ++ b_nl :: T)) by (rewrite <- !app_assoc; exact H0).
      assert (Hh : h = length (ind ++ bs "{{$" ++ env_text e) + 1).
      { unfold h. rewrite !app_length. change (length (bs "{{$")) with 3. lia. }
      assert (H2 : sees (mv h s) T) by (rewrite Hh; exact (sees_cons _ _ _ _ H0'')).
      assert (B : lstart (mv h s)) by (rewrite Hh; exact (lstart_line _ _ _ H0'')).
      destruct fence_math_facts as (M1 & M2 & M3).
      eapply got_bind; [apply (fenced_run ind (bs "}}$") ls _ k Bi M1 M2 M3 B Fl H2)|]. intros x ->.
      pose proof (sees_mv _ _ _ H2) as H3. rewrite fence_math.
      rewrite (fence_end_run ind (bs "}}$") _ k H3 Bi); [|now apply (lit_head (bs "}}$") _ x7d (bs "}$"))]. cbn [bind].
      rewrite Nat.min_id. destruct (dedent_ind ind ls Bi) as [-> | ->]; [|exact I]. apply got_ok. reflexivity.
  - unfold h. rewrite !app_length. cbn [map nl_lines flat_map]. rewrite !app_length. cbn [length map nl_lines flat_map app]. change (length (bs "{{$")) with 3. unfold str. lia.
Qed.
Lemma math_run s m k : sees s (nl_lines (math_lines m) ++ k) -> env_fine (mb_env m) ->
  Forall (fenced_line (bs "}}$")) (mb_lines m) ->
  got s (p_math_block s) (length (nl_lines (math_lines m))) (fun x => l_val x = m).
Proof. rewrite <- (ind_nil (math_lines m)). intros H. exact (math_run_ind [] s m k H blanks_nil). Qed.

(** Attributes. *)
Definition attr_parser : parser (str * str) :=
  separated_pair (map_parser (take_line_until1 (bs "=")) cow_str) (pchar x3d)
    (delimited (pchar x22) (map_parser (take_line_until [x22]) cow_str) (pchar x22)).
Lemma attr_run s kv r : sees s (meta_text kv ++ r) -> attr_fine kv ->
  attr_parser s = Ok (mv (length (meta_text kv)) s) kv.
Proof.
  destruct kv as [k v]. unfold attr_fine, meta_text. cbn [fst snd]. intros H (F1 & F2 & F3 & _ & _ & F4 & F5).
  assert (H0 : sees s (k ++ x3d :: x22 :: v ++ x22 :: r)) by (rewrite <- !app_assoc in H; exact H).
  unfold attr_parser, separated_pair, delimited, preceded, terminated.
  rewrite (map_cow_run (take_line_until1 (bs "=")) s k _ H0).
  2: { apply (tlu1_run _ _ _ _ H0); [exact F1|discriminate|cbn; lia|]. apply first_stop_byte; auto. discriminate. }
  cbn [bind]. pose proof (sees_mv _ _ _ H0) as H1. rewrite (pchar_run _ _ _ H1). cbn [bind].
  assert (H2 : sees (mv 1 (mv (length k) s)) (x22 :: v ++ x22 :: r)) by exact (sees_mv _ [x3d] _ H1).
  rewrite (pchar_run _ _ _ H2). cbn [bind].
  assert (H3 : sees (mv 1 (mv 1 (mv (length k) s))) (v ++ x22 :: r)) by exact (sees_mv _ [x22] _ H2).
  rewrite (map_cow_run (take_line_until [x22]) _ v _ H3).
  2: { apply (tlu_run _ _ _ _ H3); [discriminate|cbn; lia|]. apply first_stop_byte; auto. discriminate. }
  cbn [bind]. pose proof (sees_mv _ _ _ H3) as H4. rewrite (pchar_run _ _ _ H4). cbn [bind]. rewrite !mv_mv.
  do 2 f_equal. rewrite !app_length. cbn. lia.
Qed.
Lemma attr_err s r : sees s (b_nl :: r) -> fails (attr_parser s).
Proof.
  intros H. unfold attr_parser, separated_pair, map_parser. apply fails_bind, fails_bind. unfold take_line_until1, verify.
  rewrite (tlu_run (bs "=") s [] (b_nl :: r) H); [|discriminate|cbn; lia|].
  - cbn [bind length]. unfold non_empty, sp_is_empty. pose proof (sees_len _ _ (sees_tk _ [] _ H)) as L. cbn [length] in L. rewrite L. exact I.
  - split; [cbn; lia|]. split; [cbn; lia|]. right. left. left. exists [], r. auto.
Qed.
Lemma sep_run fuel s ps r : sees s (flat_map (fun p => b_sp :: meta_text p) ps ++ b_nl :: r) -> Forall attr_fine ps ->
  remaining_len s < fuel ->
  got s (sep_loop fuel space1 attr_parser s) (length (flat_map (fun p => b_sp :: meta_text p) ps)) (fun x => x = ps).
Proof.
  intros H F. revert fuel s H. induction F as [|p ps Fp F IH]; intros fuel s H L; (destruct fuel as [|fuel]; [lia|]); cbn [sep_loop].
  - cbn [flat_map app length] in *. rewrite space1_err; [apply got_ret; reflexivity|]. destruct H as [_ ->].
    apply line_end_head. right. eauto.
  - cbn [flat_map] in *. set (R := flat_map (fun p => b_sp :: meta_text p) ps) in *.
    assert (H0 : sees s ([b_sp] ++ meta_text p ++ R ++ b_nl :: r)) by (cbn [app] in *; rewrite <- app_assoc in H; exact H).
    rewrite (space1_run s [b_sp] _ H0); [|repeat constructor|discriminate|].
    2: { destruct p as [k v]. destruct Fp as (F1 & _ & _ & F2 & F3 & _). unfold meta_text. cbn [fst snd] in *.
         intros c t E. destruct k as [|x k]; [congruence|]. cbn in E. injection E as <- _.
         destruct (is_space x) eqn:S; auto. exfalso. destruct x; try discriminate; [apply F3|apply F2]; now left. }
    assert (span_eqb (mv (length [b_sp]) s) s = false) as ->.
    { unfold span_eqb. cbn. assert (sp_start s + 1 =? sp_start s = false) as -> by (apply Nat.eqb_neq; lia). reflexivity. }
    pose proof (sees_mv _ _ _ H0) as H1. rewrite (attr_run _ p _ H1 Fp).
    pose proof (sees_mv _ _ _ H1) as H2. assert (L2 : remaining_len (mv (length (meta_text p)) (mv (length [b_sp]) s)) < fuel).
    { rewrite (sees_len _ _ H2). rewrite (sees_len _ _ H0) in L. rewrite !app_length in *. cbn in *. lia. }
    specialize (IH fuel _ H2 L2). fold R in IH. unfold got in IH |- *.
    destruct (sep_loop fuel space1 attr_parser (mv (length (meta_text p)) (mv (length [b_sp]) s))); cbn [bind]; try contradiction; auto.
    destruct IH as [-> ->]. rewrite !mv_mv. split; auto. f_equal. cbn [length app]. rewrite app_length. lia.
Qed.
Lemma attrs_text_cons p ps : attrs_text (p :: ps) = meta_text p ++ flat_map (fun p => b_sp :: meta_text p) ps.
Proof.
  revert p. induction ps as [|q ps IH]; intro p; [unfold attrs_text; cbn [map join flat_map]; now rewrite app_nil_r|].
  change (attrs_text (p :: q :: ps)) with (meta_text p ++ b_sp :: attrs_text (q :: ps)). now rewrite IH.
Qed.
Lemma attrs_run s ps r : sees s (attrs_text ps ++ b_nl :: r) -> Forall attr_fine ps ->
  got s (separated_list0 space1 attr_parser s) (length (attrs_text ps)) (fun x => x = ps).
Proof.
  intros H F. unfold separated_list0. destruct ps as [|p ps].
  - cbn in H |- *. pose proof (attr_err s r H) as E. destruct (attr_parser s); cbn in E; try contradiction; [now apply got_ret|exact I].
  - rewrite attrs_text_cons in *. inversion F as [|? ? Fp Fs]; subst. rewrite <- app_assoc in H. rewrite (attr_run s p _ H Fp).
    pose proof (sees_mv _ _ _ H) as H1. pose proof (sep_run (S (remaining_len (mv (length (meta_text p)) s))) _ ps r H1 Fs ltac:(lia)) as G.
    unfold got in G |- *. destruct (sep_loop _ space1 attr_parser (mv (length (meta_text p)) s)); cbn [bind]; try contradiction; auto.
    destruct G as [-> ->]. rewrite mv_mv, app_length. auto.
Qed.

(** * Code blocks *)

Definition lang_parser : parser (option str) :=
  opt (map_parser (verify (take_line_until1 (bs " ")) (fun sp => negb (existsb (beqb x3d) (remaining sp)))) cow_str).
Lemma beqb_sym a b : beqb a b = beqb b a.
Proof. destruct (beqb_spec a b), (beqb_spec b a); congruence. Qed.
Lemma no_eq_in l : ~ In x3d l -> existsb (beqb x3d) l = false.
Proof.
  intro H. destruct (existsb (beqb x3d) l) eqn:E; auto. apply existsb_exists in E as (x & Hx & E). apply beqb_eq in E. subst x. contradiction.
Qed.
Lemma lang_run s l r : sees s (l ++ r) -> lang_fine l -> (exists r', r = b_nl :: r' \/ r = b_sp :: r') ->
  lang_parser s = Ok (mv (length l) s) (Some l).
Proof.
  intros H (F1 & F2 & F3 & F4 & F5) [r' Hr]. unfold lang_parser, opt.
  rewrite (map_cow_run (verify (take_line_until1 (bs " ")) (fun sp => negb (existsb (beqb x3d) (remaining sp)))) s l r H); [reflexivity|].
  unfold verify at 1. rewrite (tlu1_run (bs " ") s l r H F1); [|discriminate|cbn; lia|].
  - cbn [bind]. rewrite (remaining_tk _ _ _ H), no_eq_in by auto. reflexivity.
  - destruct Hr as [->| ->].
    + apply first_stop_line; [split; auto; split; [right; eauto|auto]|]. intros p k [<-|[]] Hk Hf. apply found_nth in Hf.
      rewrite nth_error_app1 in Hf by auto. apply nth_error_In in Hf. contradiction.
    + apply first_stop_byte; auto. discriminate.
Qed.
Lemma lang_none s r : sees s (b_nl :: r) -> lang_parser s = Ok s None.
Proof.
  intros H. unfold lang_parser, opt, map_parser, verify at 1, take_line_until1, verify.
  rewrite (tlu_run (bs " ") s [] (b_nl :: r) H); [|discriminate|cbn; lia|].
  - cbn [bind length]. unfold non_empty, sp_is_empty. pose proof (sees_len _ _ (sees_tk _ [] _ H)) as L. cbn [length] in L. rewrite L. reflexivity.
  - split; [cbn; lia|]. split; [cbn; lia|]. right. left. left. exists [], r. auto.
Qed.
Lemma lang_attr s k r : sees s (k ++ x3d :: r) -> no_nl k -> ~ In b_sp k -> lang_parser s = Ok s None.
Proof.
  intros H N1 N2. unfold lang_parser, opt, map_parser, verify at 1.
  pose proof (tlu_first (bs " ") (remaining s) ltac:(discriminate) ltac:(cbn; lia)) as F.
  set (n := tlu_pos (bs " ") (remaining s)) in *.
  assert (En : take_line_until (bs " ") s = Ok (mv n s) (tk n s)).
  { unfold take_line_until. fold n. apply (split_run n s (remaining s)); [split; auto; apply H|]. apply F. }
  assert (Ln : length k < n).
  { destruct F as (F1 & _ & F3). destruct H as [_ H]. rewrite H in F1, F3. destruct (Nat.lt_ge_cases (length k) n) as [|L]; auto. exfalso.
    assert (Nn : forall b, nth_error (k ++ x3d :: r) n = Some b -> In b k \/ b = x3d).
    { intros b Hb. destruct (Nat.eq_dec n (length k)) as [E|E].
      - rewrite E, nth_error_app2, Nat.sub_diag in Hb by lia. cbn in Hb. right. congruence.
      - left. rewrite nth_error_app1 in Hb by lia. eapply nth_error_In; eauto. }
    destruct F3 as [F3|[[F3|F3]|(p & [<-|[]] & F3)]].
    - rewrite app_length in F3. cbn in F3. lia.
    - apply found_nth in F3. apply Nn in F3 as [F3|F3]; [now apply N1|discriminate].
    - apply found2_nth in F3 as [F3 F4]. assert (Ns : n < length k).
      { destruct (Nat.eq_dec n (length k)) as [E|E]; [|lia]. rewrite E, nth_error_app2, Nat.sub_diag in F3 by lia. cbn in F3. discriminate. }
      destruct (Nat.eq_dec (S n) (length k)) as [E|E].
      + rewrite E, nth_error_app2, Nat.sub_diag in F4 by lia. cbn in F4. discriminate.
      + rewrite nth_error_app1 in F4 by lia. apply nth_error_In in F4. now apply N1.
    - apply found_nth in F3. apply Nn in F3 as [F3|F3]; [now apply N2|discriminate]. }
  unfold take_line_until1, verify. rewrite En. cbn [bind].
  assert (Hn : n <= length (remaining s)) by apply F.
  assert (S1 : sees s (firstn n (remaining s) ++ skipn n (remaining s))) by (rewrite firstn_skipn; split; [apply H|reflexivity]).
  assert (Lf : length (firstn n (remaining s)) = n) by (rewrite firstn_length; lia).
  pose proof (sees_tk _ _ _ S1) as T1. rewrite Lf in T1.
  unfold non_empty, sp_is_empty. rewrite (sees_len _ _ T1), Lf. assert (n =? 0 = false) as -> by (apply Nat.eqb_neq; lia).
  cbn [negb bind]. destruct T1 as [_ T1]. rewrite T1.
  assert (existsb (beqb x3d) (firstn n (remaining s)) = true) as ->; [|reflexivity].
  apply existsb_exists. exists x3d. split; [|apply beqb_refl].
  destruct H as [_ H]. rewrite H, firstn_app. apply in_or_app. right. destruct (n - length k) eqn:E; [lia|]. now left.
Qed.
Lemma attrs_head p ps r : attr_fine p -> nonblank_head (attrs_text (p :: ps) ++ r).
Proof.
  intros (F1 & _ & _ & F2 & F3 & _) c t E. rewrite attrs_text_cons in E. destruct p as [[|x k] v]; [cbn in F1; congruence|].
  cbn in E. injection E as <- _. cbn [fst] in *. destruct (is_space x) eqn:S; auto. exfalso.
  destruct x; try discriminate; [apply F3|apply F2]; now left.
Qed.
Lemma attrs_nonblank ps r : Forall attr_fine ps -> nonblank_head (attrs_text ps ++ b_nl :: r).
Proof.
  intro F. destruct ps as [|p qs]; [apply line_end_head; right; exists r; reflexivity|]. inversion F; subst. now apply attrs_head.
Qed.
Lemma code_head_run s l ps r : sees s (code_head l ps ++ b_nl :: r) -> Forall attr_fine ps ->
  (forall x, l = Some x -> lang_fine x) ->
  got s (do (s3, lang) <- lang_parser s;; do (s4, _) <- space0 s3;; do (s5, pairs) <- separated_list0 space1 attr_parser s4;; Ok s5 (lang, pairs))
    (length (code_head l ps)) (fun x => x = (l, ps)).
Proof.
  intros H F Fl.
  assert (A : exists u s1, sees s (u ++ attrs_text ps ++ b_nl :: r) /\ length (code_head l ps) = length u + length (attrs_text ps) /\
              lang_parser s = Ok s1 l /\ (exists o, space0 s1 = Ok (mv (length u) s) o)).
  { destruct l as [l|]; cbn [code_head] in *.
    - specialize (Fl l eq_refl). destruct ps as [|p ps].
      + rewrite app_nil_r in *. cbn [attrs_text map join app].
        rewrite (lang_run s l (b_nl :: r) H Fl) by eauto. exists l. eexists. split; [exact H|]. split; [cbn; lia|]. split; [reflexivity|].
        pose proof (sees_mv _ _ _ H) as H1. rewrite (space0_none _ _ H1) by (apply line_end_head; right; eauto). eauto.
      + rewrite <- app_assoc in H. cbn [app] in H. rewrite (lang_run s l _ H Fl) by eauto.
        exists (l ++ [b_sp]), (mv (length l) s). split; [rewrite <- app_assoc; exact H|]. split; [rewrite !app_length; cbn [length]; lia|]. split; [reflexivity|].
        pose proof (sees_mv _ _ _ H) as H1. change (b_sp :: attrs_text (p :: ps) ++ b_nl :: r) with ([b_sp] ++ attrs_text (p :: ps) ++ b_nl :: r) in H1.
        rewrite (space0_run _ [b_sp] _ H1); [|repeat constructor|].
        * rewrite mv_mv, app_length. eauto.
        * inversion F; subst. now apply attrs_head.
    - exists [], s. split; [exact H|]. split; [reflexivity|]. split.
      + destruct ps as [|p ps]; [exact (lang_none s r H)|]. rewrite attrs_text_cons in H. inversion F as [|? ? (F1 & F2 & F3 & F4 & F5 & _) Fs]; subst.
        destruct p as [k v]. unfold meta_text in H. cbn [fst snd] in *. rewrite <- !app_assoc in H. exact (lang_attr s k _ H F2 F4).
      + rewrite (space0_none _ _ H) by now apply attrs_nonblank. cbn [length]. rewrite mv_0. eauto. }
  destruct A as (u & s1 & H0 & Lu & E1 & o & E2). rewrite E1. cbn [bind]. rewrite E2. cbn [bind].
  pose proof (sees_mv _ _ _ H0) as H1. pose proof (attrs_run _ _ _ H1 F) as G. unfold got in G |- *.
  destruct (separated_list0 space1 attr_parser (mv (length u) s)); cbn [bind]; try contradiction; auto.
  destruct G as [-> ->]. rewrite mv_mv, Lu. auto.
Qed.
Lemma code_run_ind ind s c ps k : sees s (nl_lines (map (app ind) (code_lines c ps)) ++ k) -> blanks ind ->
  (forall l, cb_lang c = Some l -> lang_fine l) ->
  Forall attr_fine ps -> Forall (fenced_line (bs "}}}")) (cb_lines c) ->
  got s (p_code_block s) (length (nl_lines (map (app ind) (code_lines c ps))))
    (fun x => l_val x = CodeBlock (cb_lang c) (collect_map ps) (cb_lines c)).
Proof.
  intros H Bi Fe Fp Fl. destruct c as [lang meta ls]. cbn [cb_lines cb_lang cb_meta] in *. unfold code_lines in *. cbn [cb_lines cb_lang map nl_lines flat_map] in *.
  rewrite map_app in *. fold (nl_lines (map (app ind) ls ++ map (app ind) [bs "}}}"])) in *. rewrite nl_lines_app in *.
  set (T := nl_lines (map (app ind) ls) ++ ind ++ bs "}}}" ++ b_nl :: k). set (hd := code_head lang ps) in *.
  assert (H0 : sees s (ind ++ bs "{{{" ++ hd ++ b_nl :: T)).
  { cbn [map nl_lines flat_map] in H. rewrite <- !app_assoc in H. exact H. }
  set (h := length ind + (3 + (length hd + 1))).
  apply (got_located s _ _ (fun x => x = CodeBlock lang (collect_map ps) ls)).
  eapply got_n.
  - eapply (got_bind s _ h (fun b => b = (length ind, lang, collect_map ps))).
    + unfold code_block_start.
      rewrite (count_space_run s ind _ H0 Bi); [|now apply (lit_head (bs "{{{") _ x7b (bs "{{"))].
      cbn [bind]. pose proof (sees_mv _ _ _ H0) as H0'. rewrite (tag_run (bs "{{{") _ _ H0'). cbn [bind].
      pose proof (sees_mv _ (bs "{{{") _ H0') as H1. change (length (bs "{{{")) with 3 in *.
      pose proof (code_head_run _ _ _ _ H1 Fp Fe) as R. fold lang_parser. fold attr_parser. fold hd in R.
      destruct (lang_parser (mv 3 (mv (length ind) s))) as [s3 x3| | |]; cbn [bind] in *; try contradiction; [|exact I].
      destruct (space0 s3) as [s4 x4| | |]; cbn [bind] in *; try contradiction; [|exact I].
      destruct (separated_list0 space1 attr_parser s4) as [s5 x5| | |]; cbn [bind got] in *; try contradiction; [|exact I].
      destruct R as [-> R]. injection R as -> ->. pose proof (sees_mv _ _ _ H1) as H2.
      rewrite (space0_none _ _ H2) by (apply line_end_head; right; eauto). cbn [bind].
      rewrite (eol_run_nl _ _ H2). cbn [bind]. rewrite !mv_mv. split; [f_equal; unfold h; lia|reflexivity].
    + intros b ->. cbn [fst snd].
      assert (H0'' : sees s ((ind ++ bs "{{{" ++ hd) ++ b_nl :: T)) by (rewrite <- !app_assoc; exact H0).
      assert (Hh : h = length (ind ++ bs "{{{" ++ hd) + 1).
      { unfold h. rewrite !app_length. change (length (bs "{{{")) with 3. lia. }
      assert (H2 : sees (mv h s) T) by (rewrite Hh; exact (sees_cons _ _ _ _ H0'')).
      assert (B : lstart (mv h s)) by (rewrite Hh; exact (lstart_line _ _ _ H0'')).
      destruct fence_code_facts as (M1 & M2 & M3).
      eapply got_bind; [rewrite fence_code; apply (fenced_run ind (bs "}}}") ls _ k Bi M1 M2 M3 B Fl H2)|]. intros x ->.
      pose proof (sees_mv _ _ _ H2) as H3. rewrite fence_code.
      rewrite (fence_end_run ind (bs "}}}") _ k H3 Bi); [|now apply (lit_head (bs "}}}") _ x7d (bs "}}"))]. cbn [bind].
      rewrite Nat.min_id. destruct (dedent_ind ind ls Bi) as [-> | ->]; [|exact I]. apply got_ok. reflexivity.
  - unfold h. rewrite !app_length. cbn [map nl_lines flat_map]. rewrite !app_length. cbn [length map nl_lines flat_map app].
    change (length (bs "{{{")) with 3. unfold str. lia.
Qed.
Lemma code_run s c ps k : sees s (nl_lines (code_lines c ps) ++ k) -> (forall l, cb_lang c = Some l -> lang_fine l) ->
  Forall attr_fine ps -> Forall (fenced_line (bs "}}}")) (cb_lines c) ->
  got s (p_code_block s) (length (nl_lines (code_lines c ps)))
    (fun x => l_val x = CodeBlock (cb_lang c) (collect_map ps) (cb_lines c)).
Proof. rewrite <- (ind_nil (code_lines c ps)). intros H. exact (code_run_ind [] s c ps k H blanks_nil). Qed.
