(** Running the parsers on a text that is known: the building blocks. *)
From Verif Require Import Base ModelSpan ModelComb ModelAst ModelTable ModelLink ModelInline ModelBlock
  SpecDoc SpecBlock SpecTree SpecSpan SpecRound ProofBase ProofBytes ProofContract ProofPrim ProofInline ProofLink ProofText
  ProofBlock ProofFence ProofDefs ProofTable ProofList ProofPage ProofClaims2 ProofSpan.
Local Open Scope nat_scope.

(** * Positions *)

Definition mv (n : nat) (s : span) : span := Span (sp_inner s) (sp_start s + n) (sp_end s) (sp_depth s).
Definition tk (n : nat) (s : span) : span := Span (sp_inner s) (sp_start s) (sp_start s + n) (sp_depth s).
(** The text ahead. *)
Definition sees (s : span) (l : str) : Prop := span_ok s /\ remaining s = l.
Definition lstart (s : span) : Prop := bol (sp_inner s) (sp_start s).

Lemma mv_0 s : mv 0 s = s.
Proof. destruct s. unfold mv. cbn. now rewrite Nat.add_0_r. Qed.
Lemma mv_mv n m s : mv m (mv n s) = mv (n + m) s.
Proof. unfold mv. cbn. f_equal. lia. Qed.
Lemma sees_ok s l : sees s l -> span_ok s.
Proof. now intros [H _]. Qed.
Lemma sees_len s l : sees s l -> remaining_len s = length l.
Proof. intros [H <-]. now apply remaining_len_eq. Qed.
Lemma sees_moved s a r : sees s (a ++ r) -> moved s (length a) (mv (length a) s).
Proof. intros [H E]. split; [rewrite E, app_length; lia|reflexivity]. Qed.
Lemma sees_mv s a r : sees s (a ++ r) -> sees (mv (length a) s) r.
Proof.
  intro H. pose proof (sees_moved _ _ _ H) as M. destruct H as [H E]. split; [eapply moved_ok; eauto|].
  rewrite (moved_remaining _ _ _ H M), E, skipn_app, skipn_all, Nat.sub_diag. reflexivity.
Qed.
Lemma sees_mvn n s a r : sees s (a ++ r) -> n = length a -> sees (mv n s) r.
Proof. intros H ->. now apply sees_mv. Qed.
Lemma sees_tk s a r : sees s (a ++ r) -> sees (tk (length a) s) a.
Proof.
  intro H. pose proof (sees_moved _ _ _ H) as [M _]. destruct H as [H E]. split.
  - rewrite remaining_len_sub in M by auto. destruct H. split; cbn; lia.
  - unfold tk. rewrite remaining_taken by auto. rewrite E, firstn_app, Nat.sub_diag, firstn_all. cbn. apply app_nil_r.
Qed.
Lemma sees_nth s l k : sees s l -> k < length l -> nth_error (sp_inner s) (sp_start s + k) = nth_error l k.
Proof.
  intros [H <-] L. rewrite remaining_len_sub in L by auto. unfold remaining. symmetry. apply nth_error_slice. lia.
Qed.
Lemma lstart_mv s a r : sees s ((a ++ [b_nl]) ++ r) -> lstart (mv (length (a ++ [b_nl])) s).
Proof.
  intro H. right. unfold mv. cbn [sp_start sp_inner]. rewrite app_length. cbn [length].
  replace (sp_start s + (length a + 1) - 1) with (sp_start s + length a) by lia.
  rewrite (sees_nth _ _ _ H) by (rewrite !app_length; cbn; lia).
  rewrite <- app_assoc, nth_error_app2, Nat.sub_diag by lia. reflexivity.
Qed.

(** * Outcomes *)

(** [r] succeeds after [n] bytes with a value satisfying [P], or panics. *)
Definition got {A} (s : span) (r : res A) (n : nat) (P : A -> Prop) : Prop :=
  match r with
  | Ok s' x => s' = mv n s /\ P x
  | Panic => True
  | _ => False
  end.
(** [r] is an error or a panic. *)
Definition fails {A} (r : res A) : Prop := match r with Err | Panic => True | _ => False end.
Definition ends {A} (r : res A) : Prop := match r with OutOfFuel => False | _ => True end.

Lemma got_weaken {A} s (r : res A) n (P Q : A -> Prop) : got s r n P -> (forall x, P x -> Q x) -> got s r n Q.
Proof. destruct r; cbn; auto. intros [H K] HQ. auto. Qed.
Lemma got_ok {A} s n (x : A) (P : A -> Prop) : P x -> got s (Ok (mv n s) x) n P.
Proof. intro H. split; auto. Qed.
Lemma got_bind {A B} s (r : res A) n P (f : span -> A -> res B) m Q :
  got s r n P -> (forall x, P x -> got (mv n s) (f (mv n s) x) m Q) -> got s (bind r f) (n + m) Q.
Proof.
  destruct r as [s1 x| | |]; cbn; auto. intros [-> H] K. specialize (K x H).
  destruct (f (mv n s) x); cbn in *; auto. now rewrite <- mv_mv.
Qed.
Lemma got_bind_r {A B} s (r : res A) n P (f : span -> A -> res B) m Q :
  got s r n P -> (forall x, P x -> got s (f (mv n s) x) m Q) -> got s (bind r f) m Q.
Proof. destruct r as [s1 x| | |]; cbn; auto. intros [-> H] K. now apply K. Qed.
Lemma got_pmap {A B} s (p : parser A) (f : A -> B) n (P : A -> Prop) (Q : B -> Prop) :
  got s (p s) n P -> (forall x, P x -> Q (f x)) -> got s (pmap p f s) n Q.
Proof. unfold pmap. destruct (p s); cbn; auto. intros [-> H] K. auto. Qed.
Lemma got_palt_l {A} s (p q : parser A) n P : got s (p s) n P -> got s (palt p q s) n P.
Proof. unfold palt. destruct (p s); cbn; auto. contradiction. Qed.
Lemma got_palt_r {A} s (p q : parser A) n P : fails (p s) -> got s (q s) n P -> got s (palt p q s) n P.
Proof. unfold palt. destruct (p s); cbn; auto; contradiction. Qed.
Lemma got_located {A} s (p : parser A) n P :
  got s (p s) n P -> got s (located_p p s) n (fun x => P (l_val x)).
Proof.
  unfold located_p, locate, capture. destruct (p s) as [s1 x| | |]; cbn [bind got]; auto. intros [-> H].
  assert (sp_start (mv n s) <? sp_start s = false) as -> by (apply Nat.ltb_ge; cbn; lia). cbn. auto.
Qed.
Lemma got_deeper {A} s (p : parser A) n P :
  got (with_deeper s) (p (with_deeper s)) n P -> got s (deeper p s) n P.
Proof.
  unfold deeper. destruct (p (with_deeper s)) as [s1 x| | |]; cbn; auto. intros [-> H]. split; auto.
  unfold with_shallower, with_deeper, with_depth, mv. destruct s. cbn. f_equal. lia.
Qed.
Lemma sees_deeper s l : sees s l -> sees (with_deeper s) l.
Proof. intros [H E]. split; auto. Qed.

Lemma fails_bind {A B} (r : res A) (f : span -> A -> res B) : fails r -> fails (bind r f).
Proof. destruct r; cbn; auto; contradiction. Qed.
Lemma fails_bind_ends {A B} (r : res A) (f : span -> A -> res B) :
  ends r -> (forall s x, r = Ok s x -> fails (f s x)) -> fails (bind r f).
Proof. destruct r; cbn; auto. Qed.
Lemma fails_bind_got {A B} s (r : res A) n P (f : span -> A -> res B) :
  got s r n P -> (forall x, P x -> fails (f (mv n s) x)) -> fails (bind r f).
Proof. destruct r; cbn; auto; try contradiction. intros [-> H] K. auto. Qed.
Lemma fails_pmap {A B} s (p : parser A) (f : A -> B) : fails (p s) -> fails (pmap p f s).
Proof. apply fails_bind. Qed.
Lemma fails_palt {A} s (p q : parser A) : fails (p s) -> fails (q s) -> fails (palt p q s).
Proof. unfold palt. destruct (p s); cbn; auto; contradiction. Qed.
Lemma fails_located {A} s (p : parser A) : fails (p s) -> fails (located_p p s).
Proof. unfold located_p, locate, capture. destruct (p s); cbn [bind fails]; auto; contradiction. Qed.
Lemma fails_deeper {A} s (p : parser A) : fails (p (with_deeper s)) -> fails (deeper p s).
Proof. unfold deeper. destruct (p (with_deeper s)); cbn; auto; contradiction. Qed.
Lemma fails_err {A} : fails (@Err A). Proof. exact I. Qed.
Lemma got_pnot {A} s (p : parser A) : fails (p s) -> got s (pnot p s) 0 (fun _ => True).
Proof. unfold pnot. destruct (p s); cbn; auto; try contradiction. now rewrite mv_0. Qed.
Lemma fails_pnot {A} s (p : parser A) n P : got s (p s) n P -> fails (pnot p s).
Proof. unfold pnot. destruct (p s); cbn; auto. Qed.
Lemma got_opt_none {A} s (p : parser A) : fails (p s) -> got s (opt p s) 0 (fun x => x = None).
Proof. unfold opt. destruct (p s); cbn; auto; try contradiction. now rewrite mv_0. Qed.
Lemma got_opt_some {A} s (p : parser A) n P :
  got s (p s) n P -> got s (opt p s) n (fun x => exists y, x = Some y /\ P y).
Proof. unfold opt. destruct (p s); cbn; auto; try contradiction. intros [-> H]. eauto. Qed.
Lemma got_eq {A} s (r : res A) n x : r = Ok (mv n s) x -> got s r n (fun y => y = x).
Proof. intros ->. split; auto. Qed.

(** * Repetition *)

Lemma many0_fuel_more {A} (p : parser A) f g s : f <= g -> many0_fuel f p s <> OutOfFuel ->
  many0_fuel g p s = many0_fuel f p s.
Proof.
  revert g s. induction f as [|f IH]; intros g s L H; [now contradiction H|].
  destruct g as [|g]; [lia|]. cbn in *. destruct (p s) as [s1 a| | |]; auto.
  destruct (span_eqb s1 s); auto. rewrite IH; auto; [lia|].
  intro E. apply H. rewrite E. reflexivity.
Qed.
Lemma got_many0_nil {A} s (p : parser A) : fails (p s) -> got s (many0 p s) 0 (fun l => l = []).
Proof. unfold many0. cbn. destruct (p s); cbn; auto; try contradiction. now rewrite mv_0. Qed.
Lemma got_many0_cons {A} s l (p : parser A) n m P Q :
  sees s l -> n <= length l -> 0 < n -> got s (p s) n P -> got (mv n s) (many0 p (mv n s)) m Q ->
  got s (many0 p s) (n + m) (fun l => exists x l', l = x :: l' /\ P x /\ Q l').
Proof.
  intros Hs Ln L H K. unfold many0 in *. cbn [many0_fuel]. destruct (p s) as [s1 x| | |]; cbn in H; try contradiction; [|exact I].
  destruct H as [-> H].
  assert (span_eqb (mv n s) s = false) as ->.
  { unfold span_eqb. cbn. assert (sp_start s + n =? sp_start s = false) as -> by (apply Nat.eqb_neq; lia). reflexivity. }
  assert (Lr : S (remaining_len (mv n s)) <= remaining_len s).
  { rewrite (sees_len _ _ Hs). rewrite <- (firstn_skipn n l) in Hs.
    rewrite (sees_len (mv n s) (skipn n l)).
    - rewrite skipn_length. lia.
    - eapply sees_mvn; [exact Hs|]. rewrite firstn_length. lia. }
  rewrite (many0_fuel_more p (S (remaining_len (mv n s))) (remaining_len s)); auto.
  2: { intro E. rewrite E in K. exact K. }
  destruct (many0_fuel (S (remaining_len (mv n s))) p (mv n s)) as [s2 l2| | |]; cbn [bind got] in *; auto.
  destruct K as [-> K]. rewrite mv_mv. eauto 8.
Qed.
Lemma got_many1 {A} s (p : parser A) n m P Q :
  got s (p s) n P -> got (mv n s) (many0 p (mv n s)) m Q ->
  got s (many1 p s) (n + m) (fun l => exists x l', l = x :: l' /\ P x /\ Q l').
Proof.
  intros H K. unfold many1. eapply got_bind; [exact H|]. cbv beta. intros x Hx.
  unfold got in *. destruct (many0 p (mv n s)); cbn; auto. destruct K as [-> K]. eauto 8.
Qed.
Lemma fails_many1 {A} s (p : parser A) : fails (p s) -> fails (many1 p s).
Proof. apply fails_bind. Qed.

(** * Single characters and literals *)

Lemma tag_run t s r : sees s (t ++ r) -> tag t s = Ok (mv (length t) s) (tk (length t) s).
Proof.
  intros H. pose proof (sees_moved _ _ _ H) as M. destruct H as [H E].
  pose proof (tag_spec t s H) as T. destruct (tag t s) as [s1 o| | |]; try contradiction.
  - destruct T as (r' & _ & [_ ->] & ->). reflexivity.
  - now destruct (T r).
Qed.
Lemma tag_err t s : starts_with t (remaining s) = false -> tag t s = Err.
Proof. unfold tag. now intros ->. Qed.
Lemma tag_none t s : (forall r, remaining s <> t ++ r) -> tag t s = Err.
Proof.
  intro H. apply tag_err. destruct (starts_with t (remaining s)) eqn:E; auto.
  apply starts_with_spec in E as [r E]. now destruct (H r).
Qed.
Lemma pchar_run c s r : sees s (c :: r) -> pchar c s = Ok (mv 1 s) c.
Proof.
  intros H. pose proof (sees_moved _ [c] r H) as M. destruct H as [H E]. unfold pchar. rewrite E, beqb_refl.
  f_equal. destruct (advance_moved 1 s H) as [_ ->]; [rewrite E; cbn; lia|reflexivity].
Qed.
Lemma pchar_err c s : (forall r, remaining s <> c :: r) -> pchar c s = Err.
Proof.
  intro H. unfold pchar. destruct (remaining s) as [|b r] eqn:E; auto. destruct (beqb b c) eqn:B; auto.
  apply beqb_eq in B. subst. now destruct (H r).
Qed.
Definition nonblank_head (r : str) : Prop := forall c t, r = c :: t -> is_space c = false.
Lemma count_blanks a r : blanks a -> nonblank_head r -> count_while is_space (a ++ r) = length a.
Proof.
  induction 1 as [|x a Hx Ha IH]; intro K; cbn.
  - destruct r as [|c t]; auto. cbn. now rewrite (K c t).
  - rewrite Hx. f_equal. auto.
Qed.
Lemma split_run n s l : sees s l -> n <= length l -> ok_split n s = Ok (mv n s) (tk n s).
Proof.
  intros [H E] L. destruct (ok_split_takes n s H) as [_ ->]; [now rewrite E|reflexivity].
Qed.
Lemma space0_run s a r : sees s (a ++ r) -> blanks a -> nonblank_head r ->
  space0 s = Ok (mv (length a) s) (tk (length a) s).
Proof.
  intros H B K. unfold space0, take_while0. destruct H as [H E]. rewrite E, count_blanks by auto.
  apply (split_run _ _ (a ++ r)); [split; auto|]. rewrite app_length. lia.
Qed.
Lemma space0_none s r : sees s r -> nonblank_head r -> space0 s = Ok s (tk 0 s).
Proof. intros H K. pose proof (space0_run s [] r H (Forall_nil _) K) as E. cbn in E. now rewrite mv_0 in E. Qed.
Lemma space1_run s a r : sees s (a ++ r) -> blanks a -> a <> [] -> nonblank_head r ->
  space1 s = Ok (mv (length a) s) (tk (length a) s).
Proof.
  intros H B Ha K. unfold space1, take_while1. destruct H as [H E]. rewrite E, count_blanks by auto.
  destruct a as [|c a]; [congruence|]. cbn [Nat.eqb length].
  apply (split_run _ _ ((c :: a) ++ r)); [split; auto|]. rewrite app_length. cbn. lia.
Qed.
Lemma space1_err s : nonblank_head (remaining s) -> space1 s = Err.
Proof.
  intro K. unfold space1, take_while1. destruct (remaining s) as [|c t] eqn:E; auto. cbn.
  now rewrite (K c t).
Qed.

(** * Lines *)

(** [a] is a whole line: what follows is the end or a line feed. *)
Definition line_end (r : str) : Prop := r = [] \/ exists r', r = b_nl :: r'.
Definition whole_line (a r : str) : Prop := no_nl a /\ line_end r /\ (r = [] \/ no_cr_end a).

Lemma line_end_head r : line_end r -> nonblank_head r.
Proof. intros [->|[r' ->]] c t E; [discriminate|]. injection E as <- _. reflexivity. Qed.
Lemma whole_first_stop a r : whole_line a r -> first_stop [] (a ++ r) (length a).
Proof.
  intros (H1 & H2 & H3). split; [rewrite app_length; lia|]. split.
  - intros k Hk. split; [|intros p []]. intros [H|H].
    + apply found_nth in H. rewrite nth_error_app1 in H by auto. apply nth_error_In in H. now apply H1.
    + apply found2_nth in H as [Ha Hb]. rewrite nth_error_app1 in Ha by auto.
      destruct (Nat.lt_ge_cases (S k) (length a)) as [L|L].
      * rewrite nth_error_app1 in Hb by auto. apply nth_error_In in Hb. now apply H1.
      * assert (Ek : S k = length a) by lia. destruct H3 as [->|H3].
        { rewrite app_nil_r in Hb. apply nth_error_In in Hb. now apply H1. }
        apply nth_error_split in Ha as (x & y & -> & Lx). rewrite app_length in Ek. cbn in Ek.
        destruct y; [|cbn in Ek; lia]. now apply (H3 x).
  - destruct H2 as [->|[r' ->]]; [left; now rewrite app_nil_r|]. right. left. left. exists a, r'. auto.
Qed.
Lemma eol_stop_whole a r : whole_line a r -> eol_stop (a ++ r) = length a.
Proof. intro H. eapply first_stop_unique; [apply eol_first|now apply whole_first_stop]. Qed.
Lemma until_eol_run s a r : sees s (a ++ r) -> whole_line a r ->
  take_until_end_of_line_or_input s = Ok (mv (length a) s) (tk (length a) s).
Proof.
  intros [H E] W. destruct (take_until_eol_eq s H) as [_ ->]. rewrite E, (eol_stop_whole _ _ W). reflexivity.
Qed.
Lemma eol_run_end s : sees s [] -> end_of_line_or_input s = Ok (mv 0 s) tt.
Proof.
  intros H. unfold end_of_line_or_input, sp_is_empty. rewrite (sees_len _ _ H), mv_0. reflexivity.
Qed.
Lemma line_ending_run s r : sees s (b_nl :: r) -> line_ending s = Ok (mv 1 s) (tk 1 s).
Proof. intro H. unfold line_ending, palt, nl_str. now rewrite (tag_run [b_nl] s r). Qed.
Lemma eol_run_nl s r : sees s (b_nl :: r) -> end_of_line_or_input s = Ok (mv 1 s) tt.
Proof.
  intros H. unfold end_of_line_or_input, sp_is_empty. rewrite (sees_len _ _ H). cbn.
  rewrite (line_ending_run s r) by auto. reflexivity.
Qed.
Lemma line_ending_err s : (forall r, remaining s <> b_nl :: r) -> (forall r, remaining s <> b_cr :: b_nl :: r) ->
  line_ending s = Err.
Proof.
  intros H K. unfold line_ending, palt, nl_str, crlf_str. rewrite !tag_none; auto.
Qed.
Lemma eol_err s b r : sees s (b :: r) -> b <> b_nl -> b <> b_cr -> end_of_line_or_input s = Err.
Proof.
  intros H N C. unfold end_of_line_or_input, sp_is_empty. rewrite (sees_len _ _ H). cbn. destruct H as [_ E].
  rewrite line_ending_err; auto; intros r'; rewrite E; congruence.
Qed.
Lemma bol_run s : span_ok s -> lstart s -> beginning_of_line s = Ok s tt.
Proof. intros H B. destruct (bol_spec s H) as [[E _]|[_ K]]; auto. contradiction. Qed.
(** Reading a line and its terminator. *)
Lemma rest_of_line_run s a r : sees s (a ++ b_nl :: r) -> whole_line a (b_nl :: r) ->
  rest_of_line s = Ok (mv (length a + 1) s) (tk (length a) s).
Proof.
  intros H W. unfold rest_of_line. rewrite (until_eol_run s a (b_nl :: r)) by auto. cbn [bind].
  rewrite (eol_run_nl _ r) by (now apply sees_mv). cbn [bind]. now rewrite mv_mv.
Qed.

(** The stop of [take_line_until]. *)
Lemma tlu_run pat s a r : sees s (a ++ r) -> pat <> [] -> length pat <= 2 ->
  first_stop [pat] (a ++ r) (length a) -> take_line_until pat s = Ok (mv (length a) s) (tk (length a) s).
Proof.
  intros [H E] Hp Lp F. unfold take_line_until. rewrite E.
  rewrite (first_stop_unique _ _ _ _ (tlu_first pat (a ++ r) Hp Lp) F).
  apply (split_run _ _ (a ++ r)); [split; auto|]. rewrite app_length. lia.
Qed.
Lemma tlu1_run pat s a r : sees s (a ++ r) -> a <> [] -> pat <> [] -> length pat <= 2 ->
  first_stop [pat] (a ++ r) (length a) -> take_line_until1 pat s = Ok (mv (length a) s) (tk (length a) s).
Proof.
  intros H Ha Hp Lp F. unfold take_line_until1, verify. rewrite (tlu_run pat s a r) by auto. cbn [bind].
  unfold non_empty, sp_is_empty. rewrite (sees_len _ _ (sees_tk _ _ _ H)). destruct a; [congruence|reflexivity].
Qed.
(** [a] up to a byte, on one line. *)
Lemma first_stop_byte c a r : no_nl a -> ~ In c a -> c <> b_nl ->
  first_stop [[c]] (a ++ c :: r) (length a).
Proof.
  intros H1 H2 Hc. split; [rewrite app_length; lia|]. split.
  - intros k Hk. assert (N : forall b, nth_error (a ++ c :: r) k = Some b -> In b a).
    { intros b Hb. rewrite nth_error_app1 in Hb by auto. eapply nth_error_In; eauto. }
    split.
    + intros [H|H].
      * apply found_nth in H. apply N in H. now apply H1.
      * apply found2_nth in H as [Ha Hb]. destruct (Nat.lt_ge_cases (S k) (length a)) as [L|L].
        { rewrite nth_error_app1 in Hb by auto. apply nth_error_In in Hb. now apply H1. }
        assert (S k = length a) as E by lia. rewrite E, nth_error_app2, Nat.sub_diag in Hb by lia. cbn in Hb. congruence.
    + intros p [<-|[]] H. apply found_nth in H. apply N in H. contradiction.
  - right. right. exists [c]. split; [now left|]. exists a, r. auto.
Qed.
Lemma first_stop_line pats a r : whole_line a r ->
  (forall p k, In p pats -> k < length a -> ~ found p (a ++ r) k) -> first_stop pats (a ++ r) (length a).
Proof.
  intros W N. destruct (whole_first_stop _ _ W) as (F1 & F2 & F3). split; auto. split.
  - intros k Hk. split; [now apply F2|]. intros p Hp. now apply N.
  - destruct F3 as [F|[F|(p & [] & _)]]; auto.
Qed.
