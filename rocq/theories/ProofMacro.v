(** Placeholders: what [quote_format_str] and [format!] make of a format
    string. *)
From Coq Require Import Lia Arith NArith Nnat.
From Verif Require Import Base ModelSpan ModelAst ModelLink ModelBlock ModelElem ModelMacro SpecVw SpecMacro ProofBase.
From Verif Require ProofElem2 ProofRound6 ProofRound11 ProofVw ProofWhite.
Local Open Scope nat_scope.

(** * Scanning *)

Lemma arg_end_colon a r : ~ In x3a a -> ~ In x7d a -> arg_end (a ++ x3a :: r) = Some (a, true, r).
Proof.
  induction a as [|b a IH]; intros N1 N2; [reflexivity|].
  assert (E : arg_end (a ++ x3a :: r) = Some (a, true, r)) by (apply IH; intro; [apply N1|apply N2]; now right).
  assert (b <> x3a) by (intros ->; apply N1; now left). assert (b <> x7d) by (intros ->; apply N2; now left).
  cbn [app arg_end]. destruct b; try (now rewrite E); congruence.
Qed.
Lemma arg_end_brace a r : ~ In x3a a -> ~ In x7d a -> arg_end (a ++ x7d :: r) = Some (a, false, r).
Proof.
  induction a as [|b a IH]; intros N1 N2; [reflexivity|].
  assert (E : arg_end (a ++ x7d :: r) = Some (a, false, r)) by (apply IH; intro; [apply N1|apply N2]; now right).
  assert (b <> x3a) by (intros ->; apply N1; now left). assert (b <> x7d) by (intros ->; apply N2; now left).
  cbn [app arg_end]. destruct b; try (now rewrite E); congruence.
Qed.
Lemma spec_end_run a r : ~ In x7d a -> ~ In x0a a -> spec_end (a ++ x7d :: r) = Some (a, r).
Proof.
  induction a as [|b a IH]; intros N1 N2; [reflexivity|].
  assert (E : spec_end (a ++ x7d :: r) = Some (a, r)) by (apply IH; intro; [apply N1|apply N2]; now right).
  assert (b <> x7d) by (intros ->; apply N1; now left). assert (b <> x0a) by (intros ->; apply N2; now left).
  cbn [app spec_end]. destruct b; try (now rewrite E); congruence.
Qed.
Lemma to_brace_run a r : ~ In x7d a -> to_brace (a ++ x7d :: r) = Some (a, r).
Proof.
  induction a as [|b a IH]; intros N1; [reflexivity|].
  assert (E : to_brace (a ++ x7d :: r) = Some (a, r)) by (apply IH; intro; apply N1; now right).
  assert (b <> x7d) by (intros ->; apply N1; now left).
  cbn [app to_brace]. destruct b; try (now rewrite E); congruence.
Qed.
Lemma arg_end_length l : forall a c r, arg_end l = Some (a, c, r) -> length r < length l.
Proof.
  induction l as [|b l IH]; intros a c r E; [discriminate|].
  assert (K : (exists x, Some (x, c, r) = Some (a, c, r) /\ r = l) \/ arg_end l <> None -> length r < length (b :: l)).
  { intros [(x & _ & ->)|N]; cbn; [lia|]. destruct (arg_end l) as [[[a1 c1] r1]|] eqn:El; [|congruence].
    specialize (IH _ _ _ eq_refl). destruct b; cbn [arg_end] in E; rewrite ?El in E; injection E as <- <- <-; cbn; lia. }
  apply K. destruct b; cbn [arg_end] in E; try (injection E as <- <- <-; left; eexists; split; reflexivity);
    right; intro N; rewrite N in E; discriminate.
Qed.
Lemma spec_end_length l : forall a r, spec_end l = Some (a, r) -> length r < length l.
Proof.
  induction l as [|b l IH]; intros a r E; [discriminate|].
  assert (K : r = l \/ spec_end l <> None -> length r < length (b :: l)).
  { intros [->|N]; cbn; [lia|]. destruct (spec_end l) as [[a1 r1]|] eqn:El; [|congruence].
    specialize (IH _ _ eq_refl). destruct b; cbn [spec_end] in E; rewrite ?El in E; try discriminate; injection E as <- <-; cbn; lia. }
  apply K. destruct b; cbn [spec_end] in E; try discriminate; try (injection E as <- <-; left; reflexivity);
    right; intro N; rewrite N in E; discriminate.
Qed.
Lemma hole_length l a sp r : hole l = Some (a, sp, r) -> length r < length l.
Proof.
  unfold hole. intro E. destruct (arg_end l) as [[[a1 c1] r1]|] eqn:A; [|discriminate]. apply arg_end_length in A.
  destruct c1; [|injection E as <- <- <-; exact A].
  destruct (spec_end r1) as [[s r2]|] eqn:Q; [|discriminate]. apply spec_end_length in Q. injection E as <- <- <-. lia.
Qed.

(** The argument and the specification of a hole as the pieces spell them. *)
Definition arg_ok (a : str) : Prop := ~ In x3a a /\ no_braces a.
Lemma hole_run a sp r : arg_ok a -> spec_ok sp -> hole (a ++ spec_text sp ++ x7d :: r) = Some (a, sp, r).
Proof.
  intros (A1 & A2 & A3) B. unfold hole. destruct sp as [s|]; cbn [spec_text app].
  - destruct B as ((B1 & B2) & B3 & _). rewrite arg_end_colon by auto. now rewrite spec_end_run.
  - now rewrite arg_end_brace.
Qed.

(** * [replace_all] *)

Section Rep.
Context {T : Type}.
Variable f : T -> str -> option str -> T * str.
Lemma rep_fuel : forall n m st l, length l <= n -> length l <= m -> replace_all f n st l = replace_all f m st l.
Proof.
  induction n as [|n IH]; intros m st l L M.
  - destruct l; [|cbn in L; lia]. now destruct m.
  - destruct m as [|m]; [destruct l; [reflexivity|cbn in M; lia]|]. destruct l as [|b l]; [reflexivity|]. cbn [length] in *.
    cbn [replace_all]. destruct (if beqb b x7b then hole l else None) as [[[a sp] r]|] eqn:E.
    + assert (length r < length l) by (destruct (beqb b x7b); [now apply hole_length in E|discriminate]).
      destruct (f st a sp) as [st1 t]. now rewrite (IH m st1 r) by lia.
    + now rewrite (IH m st l) by lia.
Qed.
Definition rep (st : T) (l : str) : T * str := replace_all f (length l) st l.
Lemma rep_nil st : rep st [] = (st, []). Proof. reflexivity. Qed.
Lemma rep_text t : forall st l, ~ In x7b t -> rep st (t ++ l) = (fst (rep st l), t ++ snd (rep st l)).
Proof.
  induction t as [|b t IH]; intros st l N; [cbn [app]; now destruct (rep st l)|].
  assert (b <> x7b) by (intros ->; apply N; now left). unfold rep at 1. cbn [app length replace_all].
  rewrite (proj2 (beqb_neq b x7b)) by auto. fold (rep st (t ++ l)). rewrite IH by (intro; apply N; now right). reflexivity.
Qed.
Lemma rep_hole a sp st l : arg_ok a -> spec_ok sp ->
  rep st (hole_text a sp ++ l) =
  (fst (rep (fst (f st a sp)) l), snd (f st a sp) ++ snd (rep (fst (f st a sp)) l)).
Proof.
  intros A B. unfold rep at 1. unfold hole_text. cbn [app length replace_all]. rewrite beqb_refl.
  rewrite <- !app_assoc. cbn [app]. rewrite hole_run by auto. destruct (f st a sp) as [st1 t]. cbn [fst snd].
  rewrite (rep_fuel _ (length l)) by (rewrite ?app_length; cbn; lia). fold (rep st1 l). now destruct (rep st1 l).
Qed.
End Rep.

(** * Words and numbers *)

Lemma digits_not_white b : is_digit b = true -> ~ white_char [b].
Proof. intros D W. unfold white_char, white_chars in W. cbn in W. destruct b; try discriminate D; intuition discriminate. Qed.
Definition asciib (b : byte) : bool := byte_n b <? 128.
Lemma ascii_no_white_end l b : byte_n b < 128 -> ~ white_char [b] -> ~ ends_white (l ++ [b]).
Proof.
  intros A N (w & r & W & E). destruct (@exists_last _ w (ProofWhite.white_ne w W)) as (w0 & c & ->).
  rewrite app_assoc in E. apply app_inj_tail in E as [_ <-].
  unfold white_char, white_chars in W, N. cbn in W, N.
  assert (K : w0 = [] \/ 128 <= byte_n b).
  { repeat match type of W with _ \/ _ => destruct W as [W|W] end; try contradiction;
      destruct w0 as [|a [|a' [|a'' w0]]]; cbn in W; try discriminate W; try (now left); try (now destruct w0); injection W; intros; subst; right; apply Nat.leb_le; reflexivity. }
  destruct K as [->|K]; [|lia]. apply N. cbn in W. exact W.
Qed.

Lemma ascii_no_white_start l b : byte_n b < 128 -> ~ white_char [b] -> ~ starts_white (b :: l).
Proof.
  intros A N (w & r & W & E). destruct w as [|c w]; [now apply (ProofWhite.white_ne [] W)|]. cbn in E. injection E as <- _.
  unfold white_char, white_chars in W, N. cbn in W, N.
  assert (K : w = [] \/ 128 <= byte_n b).
  { repeat match type of W with _ \/ _ => destruct W as [W|W] end; try contradiction;
      injection W; intros; subst; try (now left); right; apply Nat.leb_le; reflexivity. }
  destruct K as [->|K]; [|lia]. apply N. cbn in W. exact W.
Qed.
Lemma trim_end_id s : ~ ends_white s -> str_trim_end s = s.
Proof.
  intro N. destruct (ProofVw.trim_end_spec s) as (w & E & Hw & _). destruct w as [|x w]; [now rewrite app_nil_r in E|].
  exfalso. apply N. destruct (ProofVw.blank_ends _ Hw) as (u & r & Hu & Eu); [easy|]. rewrite E, Eu. exists u, (str_trim_end s ++ r). now rewrite app_assoc.
Qed.
Lemma word_byte_facts b : word_byte b -> is_ident_byte b = true /\ byte_n b < 128 /\ ~ white_char [b] /\ b <> x3a /\ b <> x7b /\ b <> x7d.
Proof.
  intro H.
  assert (I : is_ident_byte b = true).
  { unfold is_ident_byte, is_digit. destruct H as [H|[H|[H| ->]]]; [..|reflexivity]; repeat rewrite orb_true_iff; rewrite ?andb_true_iff, ?Nat.leb_le; tauto. }
  split; [exact I|].
  destruct b; try discriminate I; (split; [apply Nat.ltb_lt; reflexivity|split; [|repeat split; discriminate]]);
    unfold white_char, white_chars; cbn; intuition discriminate.
Qed.
Lemma ident_trim a : a <> [] -> Forall word_byte a -> str_trim a = a /\ str_trim_end a = a.
Proof.
  intros N F. assert (E : str_trim_end a = a).
  { apply trim_end_id. destruct (exists_last N) as (r & b & ->). apply Forall_app in F as [_ F]. inversion F as [|? ? W _]; subst.
    apply word_byte_facts in W as (_ & L & W & _). now apply ascii_no_white_end. }
  split; [|exact E]. unfold str_trim. rewrite ProofRound11.trim_start_id; [exact E|].
  destruct a as [|b r]; [congruence|]. inversion F as [|? ? W _]; subst.
  apply word_byte_facts in W as (_ & L & W & _). now apply ascii_no_white_start.
Qed.
Lemma digits_word l : Forall (fun b => is_digit b = true) l -> Forall word_byte l.
Proof.
  apply Forall_impl. intros b H. right. right. left. unfold is_digit in H. apply andb_true_iff in H as [A B].
  rewrite Nat.leb_le in A, B. lia.
Qed.
Lemma word_arg_ok a : Forall word_byte a -> arg_ok a.
Proof.
  intro F. rewrite Forall_forall in F. split; [|split]; intro K; apply F, word_byte_facts in K; tauto.
Qed.
Lemma dec_word n : Forall word_byte (dec n) /\ dec n <> [].
Proof. destruct (ProofRound6.dec_facts n) as [D N]. split; auto. now apply digits_word. Qed.
Lemma parse_usize_word n : word n -> parse_usize n = None.
Proof.
  intros (F & _ & b & r & -> & N). unfold parse_usize. inversion F as [|? ? W _]; subst.
  assert (D : is_digit b = false).
  { unfold is_digit. apply not_true_iff_false. rewrite andb_true_iff, !Nat.leb_le. lia. }
  assert (P : b <> x2b) by (intros ->; destruct W as [W|[W|[W|W]]]; [..|discriminate W]; vm_compute in W; lia).
  assert (E : forall l, match b with x2b => l | _ => b :: r end = b :: r) by (intro l; destruct b; congruence).
  rewrite E. cbn [parse_digits]. now rewrite D.
Qed.

(** * The two passes *)

Fixpoint numbered (c : N) (ps : list piece) : list piece :=
  match ps with
  | [] => []
  | FNext sp :: ps' => FAt c sp :: numbered (c + 1) ps'
  | p :: ps' => p :: numbered c ps'
  end.
Fixpoint poss (c : N) (ps : list piece) : list N :=
  match ps with
  | [] => []
  | FNext _ :: ps' => c :: poss (c + 1) ps'
  | FAt n _ :: ps' => n :: poss c ps'
  | _ :: ps' => poss c ps'
  end.
Fixpoint nms (ps : list piece) : list str :=
  match ps with
  | [] => []
  | FNamed n _ :: ps' => n :: nms ps'
  | _ :: ps' => nms ps'
  end.
Lemma format_cons p ps : format_src (p :: ps) = piece_src p ++ format_src ps.
Proof. reflexivity. Qed.
Lemma src_next sp : piece_src (FNext sp) = hole_text [] sp. Proof. now destruct sp. Qed.
Lemma src_at n sp : piece_src (FAt n sp) = hole_text (dec n) sp. Proof. now destruct sp. Qed.
Lemma src_named n sp : piece_src (FNamed n sp) = hole_text n sp. Proof. now destruct sp. Qed.

Lemma first_next st sp : first_pass st [] sp =
  (Seen (sn_next st + 1) (sn_pos st ++ [sn_next st]) (sn_names st), hole_text (dec (sn_next st)) sp).
Proof. reflexivity. Qed.
Lemma first_at st n sp : (n < usize_bound)%N ->
  first_pass st (dec n) sp = (Seen (sn_next st) (sn_pos st ++ [n]) (sn_names st), hole_text (dec n) sp).
Proof.
  intro B. destruct (dec_word n) as [W Ne]. unfold first_pass. rewrite (proj1 (ident_trim _ Ne W)).
  destruct (dec n) as [|x y] eqn:E; [congruence|]. rewrite <- E. now rewrite ProofElem2.parse_usize_dec.
Qed.
Lemma first_named st n sp : word n ->
  first_pass st n sp = (Seen (sn_next st) (sn_pos st) (sn_names st ++ [n]), hole_text n sp).
Proof.
  intro W. assert (Ne : n <> []) by (destruct W as (_ & _ & b & r & -> & _); discriminate).
  unfold first_pass. rewrite (proj1 (ident_trim _ Ne (proj1 W))).
  destruct n as [|x y]; [congruence|]. now rewrite parse_usize_word.
Qed.
Lemma first_run ps : forall c P M, Forall piece_ok ps ->
  rep first_pass (Seen c P M) (format_src ps) =
  (Seen (c + nexts ps) (P ++ poss c ps) (M ++ nms ps), format_src (numbered c ps)).
Proof.
  induction ps as [|p ps IH]; intros c P M F; [cbn; now rewrite N.add_0_r, !app_nil_r|].
  inversion F as [|? ? Hp F']; subst. rewrite format_cons. destruct p as [t|sp|n sp|n sp].
  - cbn [piece_src]. rewrite rep_text by apply Hp. rewrite IH by auto. reflexivity.
  - rewrite src_next, rep_hole; [|split; [easy|split; easy]|exact Hp]. rewrite first_next. cbn [fst snd sn_next sn_pos sn_names].
    rewrite IH by auto. cbn [fst snd nexts poss nms numbered].
    rewrite format_cons, src_at, <- app_assoc, N.add_assoc. reflexivity.
  - destruct Hp as [B Hp]. destruct (dec_word n) as [W Ne]. rewrite src_at, rep_hole; [|now apply word_arg_ok|exact Hp].
    rewrite first_at by auto. cbn [fst snd sn_next sn_pos sn_names]. rewrite IH by auto. cbn [fst snd nexts poss nms numbered].
    rewrite format_cons, src_at, <- app_assoc. reflexivity.
  - destruct Hp as [W Hp]. rewrite src_named, rep_hole; [|apply word_arg_ok, W|exact Hp].
    rewrite first_named by auto. cbn [fst snd sn_next sn_pos sn_names]. rewrite IH by auto. cbn [fst snd nexts poss nms numbered].
    rewrite format_cons, src_named, <- app_assoc. reflexivity.
Qed.

Definition renum_piece (sorted : list N) (p : piece) : piece :=
  match p with
  | FAt n sp => FAt (match index_of n sorted with Some i => N.of_nat i | None => 0%N end) sp
  | _ => p
  end.
(** No implicit positions, and positions among [sorted]. *)
Definition placed (sorted : list N) (p : piece) : Prop :=
  match p with
  | FNext _ => False
  | FAt n _ => (n < usize_bound)%N /\ In n sorted
  | _ => True
  end.
Lemma index_of_in p l : In p l -> exists i, index_of p l = Some i.
Proof.
  induction l as [|q l IH]; intros []; cbn [index_of].
  - subst. rewrite N.eqb_refl. eauto.
  - destruct (p =? q)%N; [eauto|]. destruct (IH H) as [i ->]. cbn. eauto.
Qed.
Lemma index_of_nth p l i : index_of p l = Some i -> nth_error l i = Some p.
Proof.
  revert i. induction l as [|q l IH]; intros i E; [discriminate|]. cbn [index_of] in E.
  destruct (N.eqb_spec p q) as [->|]; [injection E as <-; reflexivity|].
  destruct (index_of p l) as [j|]; [|discriminate]. cbn in E. injection E as <-. cbn. auto.
Qed.
Lemma second_at sorted n i sp : (n < usize_bound)%N -> index_of n sorted = Some i ->
  second_pass sorted false (dec n) sp = (false, hole_text (dec (N.of_nat i)) sp).
Proof.
  intros B E. destruct (dec_word n) as [W Ne]. unfold second_pass. now rewrite (proj1 (ident_trim _ Ne W)), ProofElem2.parse_usize_dec, E by auto.
Qed.
Lemma second_named sorted n sp : word n -> second_pass sorted false n sp = (false, hole_text n sp).
Proof.
  intro W. assert (Ne : n <> []) by (destruct W as (_ & _ & b & r & -> & _); discriminate).
  unfold second_pass. now rewrite (proj1 (ident_trim _ Ne (proj1 W))), parse_usize_word by auto.
Qed.
Lemma second_run sorted qs : Forall piece_ok qs -> Forall (placed sorted) qs ->
  rep (second_pass sorted) false (format_src qs) = (false, format_src (map (renum_piece sorted) qs)).
Proof.
  induction qs as [|p ps IH]; intros F G; [reflexivity|].
  inversion F as [|? ? Hp F']; subst. inversion G as [|? ? Hg G']; subst. cbn [map]. rewrite !format_cons. destruct p as [t|sp|n sp|n sp].
  - cbn [piece_src renum_piece]. rewrite rep_text by apply Hp. rewrite IH by auto. reflexivity.
  - destruct Hg.
  - destruct Hp as [B Hp]. destruct Hg as [_ Hg]. destruct (dec_word n) as [W Ne]. rewrite src_at, rep_hole; [|now apply word_arg_ok|exact Hp].
    destruct (index_of_in n sorted Hg) as [i E]. rewrite (second_at sorted n i) by auto. cbn [fst snd]. rewrite IH by auto. cbn [fst snd renum_piece]. rewrite E, src_at. reflexivity.
  - destruct Hp as [W Hp]. assert (Ne : n <> []) by (destruct W as (_ & _ & b & r & -> & _); discriminate).
    rewrite src_named, rep_hole; [|apply word_arg_ok, W|exact Hp].
    rewrite second_named by auto. cbn [fst snd]. rewrite IH by auto. cbn [fst snd renum_piece]. rewrite src_named. reflexivity.
Qed.

Lemma insert_pos_in p l x : In x (insert_pos p l) <-> x = p \/ In x l.
Proof.
  induction l as [|q l IH]; cbn [insert_pos]; [cbn; intuition|].
  destruct (p <? q)%N; [cbn; intuition|]. destruct (N.eqb_spec p q) as [->|]; [cbn; intuition|].
  cbn [In]. rewrite IH. intuition.
Qed.
Lemma sort_pos_in l x : In x (sort_pos l) <-> In x l.
Proof.
  unfold sort_pos. induction l as [|p l IH]; cbn [fold_right]; [easy|]. rewrite insert_pos_in, IH. cbn. intuition.
Qed.
Lemma all_found_some {A B} (f : A -> option B) l ys : all_found f l = Some ys -> Forall2 (fun x y => f x = Some y) l ys.
Proof.
  revert ys. induction l as [|x l IH]; intros ys E; cbn [all_found] in E; [injection E as <-; constructor|].
  destruct (f x) as [y|] eqn:Ef; [|discriminate]. destruct (all_found f l) as [zs|]; [|discriminate]. injection E as <-. constructor; auto.
Qed.
Lemma all_found_none {A B} (f : A -> option B) l : all_found f l = None -> exists x, In x l /\ f x = None.
Proof.
  induction l as [|x l IH]; cbn [all_found]; [discriminate|]. destruct (f x) as [y|] eqn:Ef; [|exists x; cbn; auto].
  destruct (all_found f l); [discriminate|]. intros _. destruct (IH eq_refl) as (z & I & E). exists z. cbn. auto.
Qed.
Lemma forall2_nth {A B} (R : A -> B -> Prop) l m i x : Forall2 R l m -> nth_error l i = Some x -> exists y, nth_error m i = Some y /\ R x y.
Proof.
  intro F. revert i. induction F as [|a b l m H F IH]; intros i E; [now destruct i|]. destruct i as [|i]; cbn in *; [injection E as ->; eauto|auto].
Qed.

(** * [format!] *)

Section Std.
Context {V : Type}.
Variable show : V -> str -> option str.
Variable pa : list V.
Variable na : list (str * V).
Notation std := (std_format show).

Lemma std_text t : forall n k l, no_braces t -> length t + length l <= n ->
  std n pa na k (t ++ l) = option_map (app t) (std (n - length t) pa na k l).
Proof.
  induction t as [|b t IH]; intros n k l (N1 & N2) L.
  - cbn [app length]. rewrite Nat.sub_0_r. now destruct (std n pa na k l).
  - destruct n as [|n]; [cbn in L; lia|]. cbn [length] in L.
    assert (b <> x7b) by (intros ->; apply N1; now left). assert (b <> x7d) by (intros ->; apply N2; now left).
    assert (E : std (S n) pa na k ((b :: t) ++ l) = option_map (cons b) (std n pa na k (t ++ l))).
    { cbn [app std_format]. destruct b; try reflexivity; congruence. }
    rewrite E, IH; [|split; intro; [apply N1|apply N2]; now right|lia]. cbn [length Nat.sub].
    now destruct (std (n - length t) pa na k l).
Qed.
Definition spec_of (sp : option str) : str := match sp with Some s => s | None => [] end.
Lemma std_hole_run a sp r : arg_ok a -> str_trim_end a = a -> spec_ok sp ->
  std_hole (a ++ spec_text sp ++ x7d :: r) = Some (a, spec_of sp, r).
Proof.
  intros (A1 & A2 & A3) T B. unfold std_hole. destruct sp as [s|]; cbn [spec_text app spec_of].
  - destruct B as ((B1 & B2) & B3 & B4 & B5). rewrite arg_end_colon by auto. rewrite to_brace_run by auto. now rewrite trim_end_id.
  - rewrite arg_end_brace by auto. now rewrite T.
Qed.
Lemma std_step a sp n k l v : a <> [] -> Forall word_byte a -> spec_ok sp -> length (hole_text a sp) + length l <= n ->
  std_arg pa na k a = v ->
  std n pa na k (hole_text a sp ++ l) =
  match v with
  | Some (x, k') => glue (show x (spec_of sp)) (std (n - 1) pa na k' l)
  | None => None
  end.
Proof.
  intros Ne W B L E. destruct n as [|n]; [cbn in L; lia|]. cbn [Nat.sub]. rewrite Nat.sub_0_r.
  destruct a as [|b a]; [congruence|]. pose proof (word_byte_facts b (Forall_inv W)) as (_ & _ & _ & _ & Nb & _).
  assert (S1 : std (S n) pa na k (hole_text (b :: a) sp ++ l) =
     match std_hole ((b :: a) ++ spec_text sp ++ x7d :: l) with
     | Some (a, sp, r') =>
         if existsb (fun b => beqb b x24) sp then None else
         match std_arg pa na k a with
         | Some (v, next') => match show v sp, std n pa na next' r' with Some t, Some u => Some (t ++ u) | _, _ => None end
         | None => None
         end
     | None => None
     end).
  { unfold hole_text. cbn [app]. rewrite <- !app_assoc. cbn [app]. cbn [std_format]. destruct b; try reflexivity; congruence. }
  rewrite S1, std_hole_run; [|now apply word_arg_ok|now apply ident_trim|exact B].
  assert (X : existsb (fun b => beqb b x24) (spec_of sp) = false).
  { apply not_true_iff_false. intro X. apply existsb_exists in X as (y & I & Ey). apply beqb_eq in Ey. subst y.
    destruct sp as [s|]; [|destruct I]. destruct B as (_ & _ & B & _). now apply B. }
  rewrite X, E. destruct v as [[x k']|]; [|reflexivity]. unfold glue. now destruct (show x (spec_of sp)), (std n pa na k' l).
Qed.

(** What [format!] makes of pieces without implicit positions. *)
Fixpoint fillr (rs : list piece) : option str :=
  match rs with
  | [] => Some []
  | FText t :: rs' => glue (Some t) (fillr rs')
  | FNext _ :: _ => None
  | FAt n sp :: rs' => glue (shown show (nth_error pa (N.to_nat n)) sp) (fillr rs')
  | FNamed n sp :: rs' => glue (shown show (named na n) sp) (fillr rs')
  end.
Definition fixed (p : piece) : Prop :=
  match p with FNext _ => False | FAt n _ => (n < usize_bound)%N | _ => True end.
Lemma std_at k n : (n < usize_bound)%N ->
  std_arg pa na k (dec n) = option_map (fun v => (v, k)) (nth_error pa (N.to_nat n)).
Proof.
  intro B. destruct (ProofRound6.dec_facts n) as [D Ne]. unfold std_arg.
  destruct (dec n) as [|x y] eqn:E; [congruence|]. rewrite <- E in *.
  assert (F : forallb is_digit (dec n) = true) by (apply forallb_forall; now apply Forall_forall).
  rewrite F, ProofElem2.parse_usize_dec by auto. destruct (N.ltb_spec n (N.of_nat (length pa))); auto.
  assert (Z : nth_error pa (N.to_nat n) = None) by (apply nth_error_None; lia). now rewrite Z.
Qed.
Lemma std_named k n : word n -> std_arg pa na k n = option_map (fun v => (v, k)) (named na n).
Proof.
  intros (F & U & b & r & -> & N). unfold std_arg.
  assert (D : is_digit b = false) by (unfold is_digit; apply not_true_iff_false; rewrite andb_true_iff, !Nat.leb_le; lia).
  assert (I : is_ident (b :: r) = true).
  { unfold is_ident. rewrite D. destruct (str_eqb (b :: r) [x5f]) eqn:Eu; [apply str_eqb_eq in Eu; contradiction|]. cbn [negb andb]. apply forallb_forall. intros x K. rewrite Forall_forall in F.
    apply F, word_byte_facts in K. tauto. }
  assert (G : forallb is_digit (b :: r) = false) by (cbn [forallb]; now rewrite D). now rewrite G, I.
Qed.
Lemma std_run rs : forall n, Forall piece_ok rs -> Forall fixed rs -> length (format_src rs) <= n ->
  std n pa na 0 (format_src rs) = fillr rs.
Proof.
  induction rs as [|p rs IH]; intros n F G L; [now destruct n|].
  inversion F as [|? ? Hp F']; subst. inversion G as [|? ? Hg G']; subst. rewrite format_cons in *. rewrite app_length in L.
  destruct p as [t|sp|m sp|m sp].
  - cbn [piece_src] in *. rewrite std_text by (auto; lia). rewrite IH by (auto; lia). cbn [fillr]. unfold glue. now destruct (fillr rs).
  - destruct Hg.
  - destruct (dec_word m) as [W Ne]. rewrite src_at in *.
    rewrite (std_step _ sp n 0 _ _ Ne W (proj2 Hp) L (std_at 0 m Hg)). cbn [fillr]. unfold shown.
    destruct (nth_error pa (N.to_nat m)) as [v|]; [|now destruct (fillr rs)]. cbn [option_map]. rewrite IH; auto. unfold hole_text in L. cbn in L. lia.
  - rewrite src_named in *. assert (Ne : m <> []) by (destruct Hp as [(_ & _ & b & r & -> & _) _]; discriminate).
    rewrite (std_step _ sp n 0 _ _ Ne (proj1 (proj1 Hp)) (proj2 Hp) L (std_named 0 m (proj1 Hp))). cbn [fillr]. unfold shown.
    destruct (named na m) as [v|]; [|now destruct (fillr rs)]. cbn [option_map]. rewrite IH; auto. unfold hole_text in L. cbn in L. lia.
Qed.
End Std.

(** * All of it *)

Section All.
Context {V : Type}.
Variable args : list V.
Variable names : list (str * V).
Variable show : V -> str -> option str.
Hypothesis few : (N.of_nat (length args) <= usize_bound)%N.

Lemma positional_eq p : positional args p = nth_error args (N.to_nat p).
Proof.
  unfold positional. destruct (N.ltb_spec p (N.of_nat (length args))); auto. symmetry. apply nth_error_None. lia.
Qed.
Lemma named_eq (l : list (str * V)) n : named l n = lookup l n.
Proof. induction l as [|[k v] l IH]; cbn [named lookup]; [reflexivity|]. now rewrite IH. Qed.
Lemma glue_none a : glue a None = None. Proof. now destruct a. Qed.
Lemma fill_no_pos ps : forall c p, In p (poss c ps) -> nth_error args (N.to_nat p) = None -> fill args names show c ps = None.
Proof.
  induction ps as [|q ps IH]; intros c p I E; [destruct I|]. destruct q; cbn [poss fill] in *.
  - now rewrite (IH _ _ I E).
  - destruct I as [->|I]; [now rewrite E|]. now rewrite (IH _ _ I E), glue_none.
  - destruct I as [->|I]; [now rewrite E|]. now rewrite (IH _ _ I E), glue_none.
  - now rewrite (IH _ _ I E), glue_none.
Qed.
Lemma fill_no_name ps : forall c n, In n (nms ps) -> lookup names n = None -> fill args names show c ps = None.
Proof.
  induction ps as [|q ps IH]; intros c n I E; [destruct I|]. destruct q; cbn [nms fill] in *.
  - now rewrite (IH _ _ I E).
  - now rewrite (IH _ _ I E), glue_none.
  - now rewrite (IH _ _ I E), glue_none.
  - destruct I as [->|I]; [now rewrite E|]. now rewrite (IH _ _ I E), glue_none.
Qed.
Lemma numbered_ok ps : forall c, Forall piece_ok ps -> (forall p, In p (poss c ps) -> (p < usize_bound)%N) -> Forall piece_ok (numbered c ps).
Proof.
  induction ps as [|q ps IH]; intros c F B; [constructor|]. inversion F as [|? ? Hq F']; subst.
  destruct q; cbn [numbered poss] in *; constructor; auto; try (apply IH; auto; intros; apply B; now right).
  split; [apply B; now left|exact Hq].
Qed.
Lemma numbered_placed s ps : forall c, (forall p, In p (poss c ps) -> (p < usize_bound)%N /\ In p s) -> Forall (placed s) (numbered c ps).
Proof.
  induction ps as [|q ps IH]; intros c B; [constructor|].
  destruct q; cbn [numbered poss] in *; constructor; try (apply IH; intros; apply B; try right; assumption); try exact I;
    apply B; now left.
Qed.
Lemma fillr_eq pa na sorted (B : (N.of_nat (length sorted) <= usize_bound)%N) ps : forall c,
  Forall2 (fun p v => positional args p = Some v) sorted pa ->
  (forall n, In n (nms ps) -> named na n = lookup names n) ->
  (forall p, In p (poss c ps) -> In p sorted) ->
  fillr show pa na (map (renum_piece sorted) (numbered c ps)) = fill args names show c ps.
Proof.
  intros c H. revert c. induction ps as [|q ps IH]; intros c Hn Hp; [reflexivity|].
  assert (K : forall p sp r r', In p sorted -> r = r' ->
     glue (shown show (nth_error pa (N.to_nat (match index_of p sorted with Some i => N.of_nat i | None => 0%N end))) sp) r =
     glue (shown show (nth_error args (N.to_nat p)) sp) r').
  { intros p sp r r' I ->. destruct (index_of_in p sorted I) as [i E]. rewrite E, Nat2N.id.
    apply index_of_nth in E. destruct (forall2_nth _ _ _ _ _ H E) as (v & E1 & E2). rewrite E1. rewrite positional_eq in E2. now rewrite E2. }
  destruct q; cbn [numbered poss nms map renum_piece fillr fill] in *.
  - now rewrite IH.
  - apply K; [apply Hp; now left|]. apply IH; intros; [apply Hn|apply Hp]; cbn; auto.
  - apply K; [apply Hp; now left|]. apply IH; intros; [apply Hn|apply Hp]; cbn; auto.
  - rewrite Hn by now left. f_equal. apply IH; intros; [apply Hn|apply Hp]; cbn; auto.
Qed.
Lemma renum_ok sorted qs : (N.of_nat (length sorted) <= usize_bound)%N -> Forall piece_ok qs -> Forall (placed sorted) qs ->
  Forall piece_ok (map (renum_piece sorted) qs) /\ Forall fixed (map (renum_piece sorted) qs).
Proof.
  intros B F G. induction F as [|p ps Hp F IH]; [split; constructor|]. inversion G as [|? ? Hg G']; subst. destruct (IH G') as [I1 I2].
  assert (X : piece_ok (renum_piece sorted p) /\ fixed (renum_piece sorted p)).
  { destruct p; cbn [renum_piece placed piece_ok fixed] in *; auto.
    destruct Hg as [_ Hg]. destruct (index_of_in _ _ Hg) as [i E]. rewrite E.
    assert (L : i < length sorted) by (apply nth_error_Some; rewrite (index_of_nth _ _ _ E); discriminate).
    assert ((N.of_nat i < usize_bound)%N) by lia. split; auto. split; [assumption|apply Hp]. }
  split; constructor; auto; apply X.
Qed.
Lemma insert_pos_bound (b : N) p l : (p < b)%N -> Forall (fun x => (x < b)%N) l -> Forall (fun x => (x < b)%N) (insert_pos p l).
Proof. intros P F. rewrite Forall_forall in *. intros x I. apply insert_pos_in in I as [->|I]; auto. Qed.
(** Distinct positions below [b] are at most [b] many. *)
Fixpoint asc (l : list N) : Prop :=
  match l with [] => True | p :: l' => Forall (fun q => (p < q)%N) l' /\ asc l' end.
Lemma insert_asc p l : asc l -> asc (insert_pos p l).
Proof.
  induction l as [|q l IH]; cbn [insert_pos asc]; [auto|]. intros [H A].
  destruct (N.ltb_spec p q) as [L|L].
  - cbn [asc]. repeat split; auto. constructor; auto. eapply Forall_impl; [|exact H]. cbn. intros. lia.
  - destruct (N.eqb_spec p q) as [->|Ne]; [cbn [asc]; auto|]. cbn [asc]. split; auto.
    rewrite Forall_forall in *. intros x I. apply insert_pos_in in I as [->|I]; [lia|auto].
Qed.
Lemma sort_asc l : asc (sort_pos l).
Proof. unfold sort_pos. induction l; cbn [fold_right]; [exact I|now apply insert_asc]. Qed.
Lemma asc_length l : forall a b, asc l -> Forall (fun x => (a <= x < b)%N) l -> (a <= b)%N -> (N.of_nat (length l) <= b - a)%N.
Proof.
  induction l as [|p l IH]; intros a b A F L; [cbn; lia|]. destruct A as [H A]. inversion F as [|? ? Hp F']; subst.
  assert (K : (N.of_nat (length l) <= b - (p + 1))%N).
  { apply IH; auto; [|lia]. rewrite Forall_forall in *. intros x I. specialize (H x I). specialize (F' x I). lia. }
  cbn [length]. lia.
Qed.

Theorem formatted_run c ps : Forall piece_ok ps ->
  formatted args names show c (format_src ps) = ((c + nexts ps)%N, fill args names show c ps).
Proof.
  intro F. unfold formatted, quote_format_str.
  pose proof (first_run ps c [] [] F) as R. unfold rep in R. rewrite R. cbn [app sn_next sn_pos sn_names]. f_equal.
  set (sorted := sort_pos (poss c ps)).
  destruct (all_found (positional args) sorted) as [pa|] eqn:Ea.
  2:{ apply all_found_none in Ea as (p & I & E). apply (proj1 (sort_pos_in _ _)) in I. rewrite positional_eq in E. symmetry. exact (fill_no_pos ps c p I E). }
  apply all_found_some in Ea.
  destruct (all_found (fun n => option_map (fun v => (n, v)) (named names n)) (nms ps)) as [na|] eqn:En.
  2:{ apply all_found_none in En as (n & I & E). rewrite named_eq in E. symmetry. apply (fill_no_name ps c n I). now destruct (lookup names n). }
  apply all_found_some in En.
  assert (P : forall p, In p sorted -> (p < N.of_nat (length args))%N).
  { intros p I. apply In_nth_error in I as [i E]. destruct (forall2_nth _ _ _ _ _ Ea E) as (v & _ & E2).
    rewrite positional_eq in E2. assert (N.to_nat p < length args) by (apply nth_error_Some; rewrite E2; discriminate). lia. }
  assert (Q : forall p, In p (poss c ps) -> (p < usize_bound)%N /\ In p sorted).
  { intros p I. assert (J : In p sorted) by now apply sort_pos_in. split; [specialize (P p J); lia|exact J]. }
  assert (B : (N.of_nat (length sorted) <= usize_bound)%N).
  { rewrite <- (N.sub_0_r usize_bound). apply asc_length; [apply sort_asc| |lia]. rewrite Forall_forall. intros x I. specialize (P x I). lia. }
  assert (O1 : Forall piece_ok (numbered c ps)) by (apply numbered_ok; auto; intros; now apply Q).
  assert (O2 : Forall (placed sorted) (numbered c ps)) by now apply numbered_placed.
  pose proof (second_run sorted _ O1 O2) as R2. unfold rep in R2. rewrite R2. cbv iota beta.
  destruct (renum_ok sorted _ B O1 O2) as [O3 O4].
  rewrite std_run by auto. apply fillr_eq; auto; [|intros; now apply Q].
  intros n I. rewrite <- (named_eq names n). clear - En I. induction En as [|x [k v] l m E En IH]; [destruct I|].
  destruct (named names x) as [w|] eqn:Ew; [|discriminate]. cbn in E. injection E as <- <-. cbn [named].
  destruct (str_eqb x n) eqn:Ex; [apply str_eqb_eq in Ex; now subst|].
  destruct I as [->|I]; [rewrite str_eqb_refl in Ex; discriminate|auto].
Qed.
End All.
