(** Rendering: every step writes whole, well nested tags, with escaped text,
    and the ids it was given. *)
From Coq Require Import Permutation Setoid Morphisms.
From Verif Require Import Base ModelSpan ModelAst ModelTable ModelLink ModelElem ModelPath ModelHtml SpecHtml
  ProofTree ProofElem2 ProofHtml ProofHtmlId.
From Verif Require ProofPath.

(** * Steps up to equality of results *)

Definition heq (a b : hm) : Prop := forall st, a st = b st.
#[export] Instance heq_equiv : Equivalence heq.
Proof.
  split; [intros a st; reflexivity | intros a b H st; now rewrite H |
          intros a b c H K st; now rewrite H, K].
Qed.
#[export] Instance hseq_proper : Proper (heq ==> heq ==> heq) hseq.
Proof.
  intros a a' A b b' B st. unfold hseq. rewrite A. destruct (a' st) as [[st1 o1]| | |]; auto.
  now rewrite B.
Qed.
Lemma hseq_assoc a b c : heq ((a ;; b) ;; c) (a ;; (b ;; c)).
Proof.
  intro st. unfold hseq. destruct (a st) as [[st1 o1]| | |]; auto.
  destruct (b st1) as [[st2 o2]| | |]; auto. destruct (c st2) as [[st3 o3]| | |]; auto.
  now rewrite app_assoc.
Qed.
Lemma out_out a b : heq (out a ;; out b) (out (a ++ b)).
Proof. intro st. reflexivity. Qed.
Lemma out_out_seq a b m : heq (out a ;; (out b ;; m)) (out (a ++ b) ;; m).
Proof. intro st. unfold hseq, out. destruct (m st) as [[st1 o1]| | |]; auto. now rewrite app_assoc. Qed.
Lemma skip_seq m : heq (skip ;; m) m.
Proof. intro st. unfold hseq, skip, out. destruct (m st) as [[st1 o1]| | |]; auto. Qed.
Lemma seq_skip m : heq (m ;; skip) m.
Proof. intro st. unfold hseq, skip, out. destruct (m st) as [[st1 o1]| | |]; auto. now rewrite app_nil_r. Qed.
Lemma each_cons {A} (f : A -> hm) x l : each f (x :: l) = (f x ;; each f l).
Proof. reflexivity. Qed.
Lemma each_nil {A} (f : A -> hm) : each f [] = skip.
Proof. reflexivity. Qed.
Lemma each_out {A} (f : A -> str) l : heq (each (fun x => out (f x)) l) (out (flat_map f l)).
Proof.
  induction l as [|x l IH]; [reflexivity|]. rewrite each_cons. rewrite IH. apply out_out.
Qed.
Lemma each_ext {A} (f g : A -> hm) l : (forall x, In x l -> heq (f x) (g x)) -> heq (each f l) (each g l).
Proof.
  induction l as [|x l IH]; intro H; [reflexivity|]. rewrite !each_cons.
  rewrite (H x) by now left. rewrite IH; [reflexivity|]. intros y Y. apply H. now right.
Qed.

Lemma hseq_ok a b st st2 o : hseq a b st = HOk (st2, o) ->
  exists st1 o1 o2, a st = HOk (st1, o1) /\ b st1 = HOk (st2, o2) /\ o = o1 ++ o2.
Proof.
  unfold hseq. destruct (a st) as [[st1 o1]| | |]; try discriminate.
  destruct (b st1) as [[st3 o2]| | |] eqn:E; try discriminate. intros [= <- <-]. eauto 6.
Qed.

(** * Escaping *)

Lemma escape_free s : free (bs "<>""'`") (escape_html s).
Proof.
  induction s as [|b s IH]; [constructor|]. unfold escape_html. cbn [flat_map]. apply Forall_app.
  split; [|exact IH].
  destruct b; cbn [escape_byte]; repeat constructor; cbn; intuition discriminate.
Qed.
Lemma free_weaken bad bad' s : (forall b, In b bad -> In b bad') -> free bad' s -> free bad s.
Proof. intros H F. eapply Forall_impl; [|exact F]. intros b B I. apply B, H, I. Qed.
Lemma escape_markup s : free markup (escape_html s).
Proof. eapply free_weaken; [|apply escape_free]. cbn. tauto. Qed.
Lemma escape_attr s : free attr_markup (escape_html s).
Proof. eapply free_weaken; [|apply escape_free]. cbn. tauto. Qed.
Lemma suffix_free s : suffix_ok s -> free attr_markup s.
Proof.
  intro H. eapply Forall_impl; [|exact H]. intros b [->|D]; cbn; [intuition discriminate|].
  intros [<-|[<-|[<-|[]]]]; discriminate.
Qed.
Lemma dec_free n : free attr_markup (dec n).
Proof. apply suffix_free. eapply Forall_impl; [|apply uint_str_digits]. intros b H. now right. Qed.
Lemma free_join bad sep l : free bad sep -> Forall (free bad) l -> free bad (join sep l).
Proof.
  intros S F. induction F as [|x l X _ IH]; [constructor|].
  destruct l; cbn [join]; [exact X|]. rewrite !free_app. auto.
Qed.
Lemma free_flat_map {A} bad (f : A -> str) l : (forall x, In x l -> free bad (f x)) -> free bad (flat_map f l).
Proof.
  induction l as [|x l IH]; intro H; [constructor|]. cbn [flat_map]. apply free_app.
  split; [apply H; now left | apply IH; intros y Y; apply H; now right].
Qed.

(** * Histories *)

Lemma lvl_get_set k v m x : lvl_get x (lvl_set k v m) = if x =? k then Some v else lvl_get x m.
Proof.
  induction m as [|[k' v'] m IH]; cbn [lvl_set lvl_get]; [reflexivity|].
  destruct (k =? k') eqn:E.
  - apply Nat.eqb_eq in E. subst. cbn [lvl_get]. destruct (x =? k'); reflexivity.
  - cbn [lvl_get]. rewrite IH. destruct (x =? k') eqn:F; [|reflexivity].
    apply Nat.eqb_eq in F. subst. destruct (k' =? k) eqn:G; [|reflexivity].
    apply Nat.eqb_eq in G. subst. now rewrite Nat.eqb_refl in E.
Qed.
Lemma max_level_set k v m : max_level (lvl_set k v m) =
  Some (match max_level m with Some n => Nat.max k n | None => k end).
Proof.
  assert (H : m = [] \/ list_max (map fst (lvl_set k v m)) = Nat.max k (list_max (map fst m))).
  { destruct m as [|x m]; [now left|]. right. generalize (x :: m) as l. clear. intro l.
    induction l as [|[k' v'] l IH]; [cbn; lia|].
    cbn [lvl_set]. destruct (k =? k') eqn:E.
    - apply Nat.eqb_eq in E. subst. cbn. lia.
    - cbn [map fst]. change (list_max (?a :: ?r)) with (Nat.max a (list_max r)). rewrite IH. lia. }
  destruct m as [|x m]; [cbn; f_equal; lia|]. destruct H as [H|H]; [discriminate|].
  unfold max_level. destruct (lvl_set k v (x :: m)) eqn:E.
  - destruct x. cbn [lvl_set] in E. destruct (k =? n); discriminate.
  - now rewrite H.
Qed.

Record hrel (st : hst) (h : history) : Prop := {
  hr_get : forall k, lvl_get k (hs_headers st) = latest k h;
  hr_max : max_level (hs_headers st) = match h with [] => None | _ => Some (deepest h) end;
  hr_free : Forall (fun x => free attr_markup (snd x)) h
}.
Lemma hrel_ids st h m : hrel st h -> hrel (set_ids m st) h.
Proof. intros [A B C]. constructor; auto. Qed.
Lemma hrel_nil : hrel hst0 [].
Proof. constructor; [reflexivity | reflexivity | constructor]. Qed.
Lemma latest_free h k t : Forall (fun x : nat * str => free attr_markup (snd x)) h -> latest k h = Some t -> free attr_markup t.
Proof.
  induction 1 as [|[l x] h X _ IH]; cbn [latest]; [discriminate|].
  destruct (l =? k); [intros [= <-]; exact X | exact IH].
Qed.

Lemma flat_dash l id : flat_map (fun t => t ++ bs "-") l ++ id = join (bs "-") (l ++ [id]).
Proof.
  induction l as [|x l IH]; [reflexivity|]. cbn [flat_map app]. rewrite <- app_assoc, IH, <- app_assoc.
  destruct (l ++ [id]) eqn:E; [now destruct l|]. reflexivity.
Qed.
Lemma complete_id_path st h level id : hrel st h ->
  complete_id (hs_headers st) level id = join (bs "-") (latest_below level h ++ [id]).
Proof.
  intros [G _ _]. unfold complete_id, latest_below. rewrite <- flat_dash. f_equal.
  generalize (seq 1 (level - 1)) as ks. induction ks as [|k ks IH]; [reflexivity|].
  cbn [flat_map]. rewrite flat_map_app, IH. f_equal. rewrite G. destruct (latest k h); [|reflexivity].
  cbn [flat_map]. now rewrite app_nil_r.
Qed.
Lemma path_free level h id : Forall (fun x => free attr_markup (snd x)) h -> free attr_markup id ->
  free attr_markup (join (bs "-") (latest_below level h ++ [id])).
Proof.
  intros F I. apply free_join; [repeat constructor; cbn; intuition discriminate|].
  apply Forall_app. split; [|auto]. unfold latest_below. rewrite Forall_forall. intros x X.
  apply in_flat_map in X. destruct X as (k & _ & X). destruct (latest k h) eqn:L; [|contradiction].
  destruct X as [<-|[]]. eapply latest_free; eauto.
Qed.

Section Render.
Variable lower lossy : str -> str.
Variable highlight : option str -> list str -> option str.
Variable rel_parse : str -> option uri.
Variable frag_parse : str -> option str.
Variable cfg : html_config.
Hypothesis rel_clean : forall s u, rel_parse s = Some u -> uri_clean u.
Hypothesis frag_clean : forall s f, frag_parse s = Some f -> free attr_markup f.
Hypothesis client_side : hc_server cfg = false.
(** The attribute names the document itself provides. *)
Variable K : str -> Prop.

Notation slug := (normalize_id lower).
Notation after := (fold_left (event_history slug)).
Notation reqs := (requests slug).

Definition good (r : raw) : Prop :=
  raw_ok (hc_comments cfg) r /\ match r with RKey k => K k | _ => True end.
Definition tag_fine (t : token) : Prop :=
  match tk_name t with Some n => generator_name n | None => True end /\
  Forall (fun kv => In (fst kv) plain_attrs \/ K (fst kv)) (tk_attrs t).
Definition balanced (ts : list token) : Prop := forall stack rest, nested stack (ts ++ rest) = nested stack rest.

Definition looks (ts : list token) (ms : list mark) : Prop :=
  forall stack rest, in_pre stack = false -> marks stack (ts ++ rest) = ms ++ marks stack rest.

(** [m] run in [st] looks like [ms], issues ids for [rs], ends with the history [h'] and writes
    the ids [extra] and those issued. *)
Definition W (extra rs : list str) (h' : history) (ms : list mark) (m : hm) (st : hst) : Prop :=
  forall st' o, m st = HOk (st', o) ->
  exists ts us, show ts = o /\ Forall tok_ok ts /\ Forall tag_fine ts /\ balanced ts /\ looks ts ms /\
    issue (hs_ids st) rs = Some (hs_ids st', us) /\
    (~ K (bs "id") -> Permutation (ids ts) (extra ++ us)) /\ hrel st' h'.

Lemma W_conv e rs h' ms ms' a b st : heq a b -> ms = ms' -> W e rs h' ms a st -> W e rs h' ms' b st.
Proof. intros H <- A st' o E. apply A. now rewrite H. Qed.

Lemma balanced_app a b : balanced a -> balanced b -> balanced (a ++ b).
Proof. intros A B st r. now rewrite <- app_assoc, A, B. Qed.
Lemma looks_app a b m n : looks a m -> looks b n -> looks (a ++ b) (m ++ n).
Proof. intros A B st r P. rewrite <- app_assoc, A, B by exact P. apply app_assoc. Qed.

Lemma W_seq e1 e2 rs1 rs2 h1 h2 m1 m2 a b st : W e1 rs1 h1 m1 a st ->
  (forall st1, hrel st1 h1 -> W e2 rs2 h2 m2 b st1) -> W (e1 ++ e2) (rs1 ++ rs2) h2 (m1 ++ m2) (a ;; b) st.
Proof.
  intros A B st' o E. apply hseq_ok in E. destruct E as (st1 & o1 & o2 & E1 & E2 & ->).
  destruct (A _ _ E1) as (ts1 & us1 & S1 & T1 & G1 & L1 & M1 & I1 & P1 & H1).
  destruct (B _ H1 _ _ E2) as (ts2 & us2 & S2 & T2 & G2 & L2 & M2 & I2 & P2 & H2).
  exists (ts1 ++ ts2), (us1 ++ us2). rewrite show_app, S1, S2.
  split; [reflexivity|]. split; [now apply Forall_app|]. split; [now apply Forall_app|].
  split; [now apply balanced_app|]. split; [now apply looks_app|]. split; [|split; [|exact H2]].
  - rewrite issue_app, I1, I2. reflexivity.
  - intro N. rewrite ids_app. rewrite (P1 N), (P2 N).
    rewrite <- !app_assoc. apply Permutation_app_head. rewrite !app_assoc. apply Permutation_app_tail.
    apply Permutation_app_comm.
Qed.

Lemma W_out h ts ms st : hrel st h -> Forall tok_ok ts -> Forall tag_fine ts -> balanced ts -> looks ts ms ->
  forall e, (~ K (bs "id") -> Permutation (ids ts) e) -> W e [] h ms (out (show ts)) st.
Proof.
  intros H T G L M e P st' o E. injection E as <- <-. exists ts, [].
  rewrite app_nil_r. repeat (split; [auto; fail|]). auto.
Qed.

Lemma tag_text s : tag_fine (TkText s).
Proof. split; [exact I | constructor]. Qed.
Lemma W_text h s st : hrel st h -> free markup s -> W [] [] h (chars s) (out s) st.
Proof.
  intros H F. replace (out s) with (out (show [TkText s])) by (cbn; now rewrite app_nil_r).
  apply W_out; [exact H| | | | |].
  - constructor; [exact F | constructor].
  - constructor; [apply tag_text | constructor].
  - intros stack rest. reflexivity.
  - intros stack rest P. cbn [app marks]. now rewrite P.
  - intros _. constructor.
Qed.
Lemma W_skip h st : hrel st h -> W [] [] h [] skip st.
Proof. intro H. apply (W_text h []); [exact H | constructor]. Qed.

(** An element seen from outside. *)
Definition elem (n : str) (a : list (str * str)) (ms : list mark) : list mark :=
  match kind_of n a with Hidden => ms | _ => tag n a ms end.
Lemma W_wrap e e' rs h' ms n a m st : tok_ok (TkOpen n a) -> tag_fine (TkOpen n a) -> n <> bs "pre" ->
  W e rs h' ms m st -> (~ K (bs "id") -> Permutation (attr_ids a ++ e) e') ->
  W e' rs h' (elem n a ms) (out (show_tok (TkOpen n a)) ;; m ;; out (show_tok (TkClose n))) st.
Proof.
  intros T G NP M P st' o E. apply hseq_ok in E. destruct E as (st1 & o1 & o2 & E1 & E & ->).
  injection E1 as <- <-. apply hseq_ok in E. destruct E as (st2 & o3 & o4 & E2 & E3 & ->).
  injection E3 as <- <-.
  destruct (M _ _ E2) as (ts & us & S1 & T1 & G1 & L1 & M1 & I1 & P1 & H1).
  exists (TkOpen n a :: ts ++ [TkClose n]), us.
  split; [cbn [show flat_map]; fold (show (ts ++ [TkClose n])); rewrite show_app, S1; cbn [show flat_map];
          now rewrite app_nil_r|].
  split; [constructor; [exact T|]; apply Forall_app; split; [exact T1|]; repeat constructor; apply T|].
  split; [constructor; [exact G|]; apply Forall_app; split; [exact G1|]; constructor; [|constructor];
          split; [apply G | constructor]|].
  split; [|split; [|split; [exact I1|split; [|exact H1]]]].
  - intros stack rest. cbn [app nested]. rewrite <- app_assoc, L1. cbn [app nested].
    now rewrite str_eqb_refl.
  - intros stack rest SP. cbn [app marks]. rewrite <- app_assoc.
    assert (KP : kind_of n a <> Pre).
    { unfold kind_of. destruct (str_eqb n (bs "pre")) eqn:E; [now apply str_eqb_eq in E|].
      destruct (_ || _); [destruct (shown a)|]; discriminate. }
    rewrite M1 by (cbn [in_pre existsb]; fold (in_pre stack); rewrite SP; destruct (kind_of n a); auto; now elim KP).
    cbn [app marks tl]. unfold elem, tag.
    destruct (kind_of n a); [|reflexivity|now elim KP]. cbn [app]. f_equal. now rewrite <- app_assoc.
  - intro N. specialize (P N). change (ids (TkOpen n a :: ts ++ [TkClose n])) with (attr_ids a ++ ids (ts ++ [TkClose n])).
    rewrite ids_app. cbn [ids flat_map attr_ids tk_attrs filter map]. rewrite app_nil_r.
    rewrite (P1 N), app_assoc. apply Permutation_app_tail, P.
Qed.

Lemma W_unique h e rs h' ms id k st : hrel st h -> free attr_markup id ->
  (forall u m, free attr_markup u -> hrel (set_ids m st) h -> W (u :: e) rs h' ms (k u) (set_ids m st)) ->
  W e (id :: rs) h' ms (with_unique id k) st.
Proof.
  intros H F B st' o E. unfold with_unique in E.
  destruct (ensure_unique_total (hs_ids st) id) as (m & u & s & U & Eu & S1). rewrite U in E.
  assert (Fu : free attr_markup u) by (subst u; apply free_app; split; [exact F | now apply suffix_free]).
  destruct (B u m Fu (hrel_ids _ _ _ H) _ _ E) as (ts & us & S2 & T1 & G1 & L1 & M1 & I1 & P1 & H1).
  exists ts, (u :: us). split; [exact S2|]. split; [exact T1|]. split; [exact G1|]. split; [exact L1|].
  split; [exact M1|]. split; [|split; [|exact H1]].
  - cbn [issue]. rewrite U. cbn [hs_ids set_ids] in I1. now rewrite I1.
  - intro N. rewrite (P1 N). cbn [app]. apply Permutation_middle.
Qed.

Lemma W_headers e rs h' ms k st : W e rs h' ms (k (hs_headers st)) st -> W e rs h' ms (with_headers k) st.
Proof. intros A st' o E. now apply A. Qed.

Lemma W_insert h l t st : hrel st h -> free attr_markup t -> W [] [] ((l, t) :: h) [] (insert_header l t) st.
Proof.
  intros [G M F] T st' o E. injection E as <- <-. exists [], [].
  split; [reflexivity|]. split; [constructor|]. split; [constructor|]. split; [intros ? ?; reflexivity|].
  split; [intros ? ? ?; reflexivity|].
  split; [reflexivity|]. split; [constructor|]. constructor; cbn [hs_headers].
  - intro k. rewrite lvl_get_set. cbn [latest]. rewrite G. now rewrite Nat.eqb_sym.
  - rewrite max_level_set, M. unfold deepest. cbn [map fst].
    change (list_max (l :: map fst h)) with (Nat.max l (list_max (map fst h))).
    destruct h as [|x h]; [cbn; f_equal; lia|]. reflexivity.
  - constructor; auto.
Qed.

(** * Steps for a list of anchors of the document *)

Definition R (es : list event) (ms : list mark) (m : hm) : Prop :=
  forall st h, hrel st h -> W [] (reqs h es) (after es h) ms m st.

Lemma R_conv es ms ms' a b : heq a b -> ms = ms' -> R es ms a -> R es ms' b.
Proof. intros H E A st h G. eapply W_conv; eauto. Qed.
Lemma requests_app a : forall h b, reqs h (a ++ b) = reqs h a ++ reqs (after a h) b.
Proof.
  induction a as [|x a IH]; intros h b; [reflexivity|]. cbn [app requests fold_left].
  now rewrite IH, app_assoc.
Qed.
Lemma R_seq e1 e2 m1 m2 a b : R e1 m1 a -> R e2 m2 b -> R (e1 ++ e2) (m1 ++ m2) (a ;; b).
Proof.
  intros A B st h H. rewrite requests_app, fold_left_app.
  change (@nil str) with ([] ++ @nil str). eapply W_seq; [apply A, H|]. intros st1 H1. now apply B.
Qed.
Lemma R_seq0 e m1 m2 b a : R [] m1 a -> R e m2 b -> R e (m1 ++ m2) (a ;; b).
Proof. apply (R_seq [] e). Qed.
Lemma R_seq1 e m1 m2 a b : R e m1 a -> R [] m2 b -> R e (m1 ++ m2) (a ;; b).
Proof. intros A B. rewrite <- (app_nil_r e). now apply R_seq. Qed.
Lemma R_text s : free markup s -> R [] (chars s) (out s).
Proof. intros F st h H. now apply W_text. Qed.
Lemma R_skip : R [] [] skip.
Proof. apply (R_text []). constructor. Qed.
Lemma R_ln : R [] [] ln.
Proof. apply (R_text [b_nl]). repeat constructor. cbn. intuition discriminate. Qed.
(** A line end after or before a step is not seen. *)
Lemma R_then_ln e ms a : R e ms a -> R e ms (a ;; ln).
Proof. intro A. rewrite <- (app_nil_r ms). apply R_seq1; [exact A | apply R_ln]. Qed.
Lemma R_ln_then e ms a : R e ms a -> R e ms (ln ;; a).
Proof. intro A. change ms with ([] ++ ms). apply R_seq0; [apply R_ln | exact A]. Qed.
Lemma R_each {A} (ev : A -> list event) (look : A -> list mark) f l : (forall x, In x l -> R (ev x) (look x) (f x)) ->
  R (flat_map ev l) (flat_map look l) (each f l).
Proof.
  induction l as [|x l IH]; intro H; [apply R_skip|]. rewrite each_cons. cbn [flat_map].
  apply R_seq; [apply H; now left | apply IH; intros y Y; apply H; now right].
Qed.
Lemma R_each0 {A} look f (l : list A) : (forall x, In x l -> R [] (look x) (f x)) -> R [] (flat_map look l) (each f l).
Proof.
  intro H. replace (@nil event) with (flat_map (fun _ : A => @nil event) l).
  - now apply R_each.
  - clear. induction l; auto.
Qed.
Lemma R_wrap es ms n a m : tok_ok (TkOpen n a) -> tag_fine (TkOpen n a) -> n <> bs "pre" ->
  (~ K (bs "id") -> attr_ids a = []) -> R es ms m ->
  R es (elem n a ms) (out (show_tok (TkOpen n a)) ;; m ;; out (show_tok (TkClose n))).
Proof.
  intros T G NP N M st h H. eapply W_wrap; eauto. intro X. now rewrite (N X).
Qed.
Lemma R_void n a : tok_ok (TkVoid n a) -> tag_fine (TkVoid n a) ->
  (~ K (bs "id") -> attr_ids a = []) -> R [] [MVoid n (shown a)] (out (show_tok (TkVoid n a))).
Proof.
  intros T G N st h H. replace (show_tok (TkVoid n a)) with (show [TkVoid n a]) by (cbn [show flat_map]; apply app_nil_r).
  apply W_out; [exact H| | | | |].
  - constructor; [exact T | constructor].
  - constructor; [exact G | constructor].
  - intros stack rest. reflexivity.
  - intros stack rest _. reflexivity.
  - intro X. cbn [ids flat_map tk_attrs]. now rewrite (N X).
Qed.
(** A tag without document text in it. *)
Definition static (n : str) (a : list (str * str)) : bool :=
  existsb (str_eqb n) plain_names && negb (str_eqb n (bs "pre")) &&
  forallb (fun kv => existsb (str_eqb (fst kv)) plain_attrs && negb (str_eqb (fst kv) (bs "id"))
                     && forallb (fun b => negb (existsb (beqb b) attr_markup)) (snd kv)) a.
Lemma free_check bad s : forallb (fun b => negb (existsb (beqb b) bad)) s = true -> free bad s.
Proof.
  rewrite forallb_forall. intro H. apply Forall_forall. intros b B I. specialize (H b B).
  apply negb_true_iff in H. assert (X : existsb (beqb b) bad = true).
  { apply existsb_exists. exists b. split; [exact I | apply beqb_refl]. }
  congruence.
Qed.
Lemma plain_name_ok n : In n plain_names -> n <> [] /\ free name_markup n.
Proof.
  intro H. repeat (destruct H as [<-|H]; [split; [discriminate|]; apply free_check; vm_compute; reflexivity|]).
  contradiction.
Qed.
Lemma plain_attr_ok k : In k plain_attrs -> k <> [] /\ free key_markup k.
Proof.
  intro H. repeat (destruct H as [<-|H]; [split; [discriminate|]; apply free_check; vm_compute; reflexivity|]).
  contradiction.
Qed.
Lemma in_check x l : existsb (str_eqb x) l = true -> In x l.
Proof. apply existsb_in. Qed.
Lemma open_parts n a : In n plain_names ->
  Forall (fun kv => In (fst kv) plain_attrs /\ free attr_markup (snd kv)) a ->
  tok_ok (TkOpen n a) /\ tag_fine (TkOpen n a).
Proof.
  intros Hn Ha. destruct (plain_name_ok n Hn). split.
  - cbn [tok_ok]. repeat split; auto. eapply Forall_impl; [|exact Ha]. intros [k v] [I F].
    destruct (plain_attr_ok k I). repeat split; auto.
  - split; [now left|]. eapply Forall_impl; [|exact Ha]. intros [k v] [I F]. now left.
Qed.
Lemma static_parts n a : static n a = true ->
  In n plain_names /\ Forall (fun kv => In (fst kv) plain_attrs /\ free attr_markup (snd kv)) a /\ attr_ids a = []
  /\ n <> bs "pre".
Proof.
  unfold static. rewrite !andb_true_iff, forallb_forall. intros [[Hn Hp] Ha].
  split; [now apply in_check|]. split; [|split].
  - apply Forall_forall. intros kv I. specialize (Ha kv I). apply andb_true_iff in Ha.
    destruct Ha as [Ha Hb]. apply andb_true_iff in Ha. destruct Ha as [Ha Hc].
    split; [now apply in_check | now apply free_check].
  - clear Hn. induction a as [|[k v] a IH]; [reflexivity|]. unfold attr_ids. cbn [filter fst].
    assert (X := Ha (k, v) (or_introl eq_refl)). cbn [fst snd] in X. rewrite !andb_true_iff in X.
    destruct X as [[_ X] _]. apply negb_true_iff in X. rewrite X. apply IH. intros y Y. apply Ha. now right.
  - intros ->. discriminate.
Qed.
Lemma R_tag es ms n a m : static n a = true -> R es ms m ->
  R es (elem n a ms) (out (show_tok (TkOpen n a)) ;; m ;; out (show_tok (TkClose n))).
Proof.
  intros S M. apply static_parts in S. destruct S as (Hn & Ha & Hi & Hp).
  destruct (open_parts n a Hn Ha). now apply R_wrap.
Qed.

(** * Inline elements *)

Lemma R_keyword k : R [] (keyword_look k) (keyword_html k).
Proof.
  destruct k; cbn [keyword_html];
    try (apply (R_text _); apply free_check; vm_compute; reflexivity).
  eapply R_conv; [| |eapply (R_tag [] _ (bs "span") [(bs "class", bs "todo")] (out (bs "TODO")));
                  [vm_compute; reflexivity | apply R_text; apply free_check; vm_compute; reflexivity]].
  - rewrite !out_out. reflexivity.
  - reflexivity.
Qed.

Lemma uri_clean_display u : uri_clean u -> free attr_markup (uri_display u).
Proof.
  unfold uri_clean, uri_parts, uri_display. rewrite !Forall_app. intros (A & B & C & D & E).
  rewrite !free_app.
  repeat split; repeat match goal with
    | |- context [match ?x with Some _ => _ | None => _ end] => destruct x
    | |- context [if ?x then _ else _] => destruct x
    end; rewrite ?free_app; repeat split;
    try (apply free_check; vm_compute; reflexivity); try (constructor; fail);
    try match goal with H : Forall _ [?x] |- free _ ?x => now inversion H end.
  all: try (apply free_join; [apply free_check; vm_compute; reflexivity | exact C]).
Qed.

Lemma link_to_clean src t a u : link_to rel_parse frag_parse src t a = RsUri u -> uri_clean u.
Proof.
  unfold link_to. destruct t as [t|]; [|discriminate].
  destruct (rel_parse (relative_link_text src t)) as [v|] eqn:E; [|discriminate].
  apply rel_clean in E. intros [= <-]. destruct a as [a|]; [|exact E].
  unfold uri_clean, uri_parts in *. cbn. rewrite !Forall_app in *. destruct E as (A & B & C & D & E).
  repeat split; auto. destruct (frag_parse (anchor_dashed a)) as [f|] eqn:F; [|constructor].
  apply frag_clean in F. auto.
Qed.
Lemma resolve_clean c w src l u : uri_clean (ld_uri (link_get_data l)) ->
  resolve_link rel_parse frag_parse c w src l = RsUri u -> uri_clean u.
Proof.
  intros C. unfold resolve_link. destruct (make_output_path w src (bs "html")) as [so|]; [|discriminate].
  destruct l; cbn [link_get_data] in C.
  - destruct (is_local d && negb (is_local_anchor d)); [apply link_to_clean|]. now intros [= <-].
  - destruct (find_wiki_by_index c (N.to_nat i)); [apply link_to_clean | discriminate].
  - destruct (find_wiki_by_name c name); [apply link_to_clean | discriminate].
  - apply link_to_clean.
  - now intros [= <-].
  - destruct (is_local d); [apply link_to_clean|]. now intros [= <-].
Qed.
Lemma R_fail es ms (m : hm) : (forall st x, m st <> HOk x) -> R es ms m.
Proof. intros H st h _ st' o E. now apply H in E. Qed.

(** Where the renderer sends a link. *)
Definition href_of (l : link) : str :=
  match page_within_wiki (hc_home cfg) (hc_paths cfg) with
  | Some src =>
      match resolve_link rel_parse frag_parse (hc_paths cfg)
              (current_wiki (hc_home cfg) (hc_paths cfg)) src l with
      | RsUri u => uri_display u
      | _ => []
      end
  | None => []
  end.
Lemma R_href l ms k : uri_clean (ld_uri (link_get_data l)) ->
  (free attr_markup (href_of l) -> R [] ms (k (href_of l))) -> R [] ms (with_href rel_parse frag_parse cfg l k).
Proof.
  intros C H. unfold with_href, href_of in *. destruct (page_within_wiki _ _) as [src|]; [|apply R_fail; discriminate].
  destruct (resolve_link _ _ _ _ _ _) as [u|i|n| |] eqn:E; try (apply R_fail; discriminate).
  apply H. apply uri_clean_display. eapply resolve_clean; eauto.
Qed.

Definition attr_fine (kv : str * str) : Prop :=
  free attr_markup (snd kv) /\
  (In (fst kv) plain_attrs /\ fst kv <> bs "id" \/ fst kv <> [] /\ free key_markup (fst kv) /\ K (fst kv)).
Lemma attrs_fine a : Forall attr_fine a ->
  Forall attr_ok a /\ Forall (fun kv => In (fst kv) plain_attrs \/ K (fst kv)) a /\
  (~ K (bs "id") -> attr_ids a = []).
Proof.
  induction 1 as [|[k v] a [F H] _ (A & B & C)]; [repeat split; constructor|]. cbn [fst snd] in *.
  split; [|split].
  - constructor; [|exact A]. unfold attr_ok. cbn [fst snd].
    destruct H as [[I _]|(N & M & _)]; [destruct (plain_attr_ok k I)|]; auto.
  - constructor; [|exact B]. cbn [fst]. tauto.
  - intro N. unfold attr_ids. cbn [filter fst]. destruct (str_eqb k (bs "id")) eqn:E; [|now apply C].
    apply str_eqb_eq in E. subst k. destruct H as [[_ X]|(_ & _ & X)]; [now elim X | now elim N].
Qed.
Lemma R_void' n a : In n plain_names -> Forall attr_fine a -> R [] [MVoid n (shown a)] (out (show_tok (TkVoid n a))).
Proof.
  intros N F. destruct (attrs_fine a F) as (A & B & C). destruct (plain_name_ok n N).
  apply R_void; [cbn; auto | split; [now left | exact B] | exact C].
Qed.
Lemma R_open' es ms n a m : In n plain_names -> n <> bs "pre" -> Forall attr_fine a -> R es ms m ->
  R es (elem n a ms) (out (show_tok (TkOpen n a)) ;; m ;; out (show_tok (TkClose n))).
Proof.
  intros N P F. destruct (attrs_fine a F) as (A & B & C). destruct (plain_name_ok n N).
  apply R_wrap; [cbn; auto | split; [now left | exact B] | exact P | exact C].
Qed.

Lemma props_show p : heq (props_html p) (out (show_attrs (prop_attrs p))).
Proof.
  destruct p as [ps|]; [|reflexivity]. cbn [props_html prop_attrs].
  rewrite (each_out (fun kv : str * str => bs " " ++ fst kv ++ bs "=""" ++ escape_html (snd kv) ++ bs """")).
  unfold show_attrs. rewrite flat_map_concat_map, flat_map_concat_map, map_map. reflexivity.
Qed.
Lemma props_fine d : Forall good (data_raw d) -> uri_clean (ld_uri d) /\ Forall attr_fine (prop_attrs (ld_props d)).
Proof.
  unfold data_raw. intro H. inversion H as [|x l [U _] P]; subst. split; [exact U|].
  destruct (ld_props d) as [ps|]; [|constructor]. cbn [prop_attrs]. apply Forall_map. rewrite Forall_map in P.
  eapply Forall_impl; [|exact P]. intros [k v] [[A B] C]. split; [apply escape_attr|]. right. auto.
Qed.
Lemma In_plain x l : existsb (str_eqb x) l = true -> In x l.
Proof. apply in_check. Qed.
Ltac is_plain := apply In_plain; vm_compute; reflexivity.
Lemma attr_fine_plain k v : existsb (str_eqb k) plain_attrs = true -> str_eqb k (bs "id") = false ->
  free attr_markup v -> attr_fine (k, v).
Proof.
  intros A B C. split; [exact C|]. left. split; [now apply In_plain|]. cbn [fst]. intros ->.
  now rewrite str_eqb_refl in B.
Qed.
Ltac plain_attr := apply attr_fine_plain; [vm_compute; reflexivity | vm_compute; reflexivity |].

Definition id_attr (u : str) : list (str * str) := [(bs "id", u)].
Ltac hnorm := unfold ln;
  repeat first [rewrite hseq_assoc | rewrite out_out_seq | rewrite out_out | rewrite skip_seq | rewrite seq_skip];
  cbn [show_tok]; unfold show_attrs, id_attr; rewrite ?flat_map_app; cbn [flat_map app]; unfold show_attr; cbn [fst snd];
  rewrite ?app_nil_r; rewrite <- ?app_assoc; reflexivity.

Notation image_look := (image_look href_of).
Notation link_look := (link_look lossy href_of).
Notation dcontent_look := (dcontent_look lossy href_of).
Notation inline_look := (inline_look slug lossy href_of cfg).
Notation container_look := (container_look slug lossy href_of cfg).
Notation block_look := (block_look slug lossy href_of cfg).
Notation item_look := (item_look slug lossy href_of cfg).
Notation page_look := (page_look slug lossy href_of cfg).

Lemma R_transclusion d : Forall good (data_raw d) ->
  R [] (image_look d) (transclusion_html lossy rel_parse frag_parse cfg d).
Proof.
  intro G. apply props_fine in G. destruct G as [C P]. apply R_href; [exact C|]. intros F.
  unfold description_or_fallback. cbn [link_get_data].
  set (alt := match ld_desc d with
              | Some x => [(bs "alt", escape_html (desc_display x))] | None => [] end).
  eapply R_conv; [|reflexivity|apply (R_void' (bs "img") ((bs "src", href_of (LTransclusion d)) :: alt ++ prop_attrs (ld_props d)))].
  - rewrite props_show. unfold alt. destruct (ld_desc d); hnorm.
  - is_plain.
  - constructor; [plain_attr; exact F|]. apply Forall_app. split; [|exact P].
    unfold alt. destruct (ld_desc d); [|constructor].
    constructor; [|constructor]. plain_attr. apply escape_attr.
Qed.

Lemma attr_markup_free s : free attr_markup s -> free markup s.
Proof. apply free_weaken. cbn. tauto. Qed.

Lemma R_anchor l : (forall d, l <> LTransclusion d) -> Forall good (link_raw l) ->
  R [] (link_look l) (anchor_html lossy rel_parse frag_parse cfg l).
Proof.
  intro NT. unfold link_raw. rewrite Forall_app. intros [G D]. apply props_fine in G. destruct G as [C P].
  apply R_href; [exact C|]. intros F.
  set (body := match description_or_fallback lossy l with
       | Some (DescText t) => out (escape_html t)
       | Some (DescTransclusion d) => transclusion_html lossy rel_parse frag_parse cfg d
       | None => out (href_of l)
       end).
  set (look := match ld_desc (link_get_data l) with
        | Some (DescText t) => text t
        | Some (DescTransclusion d) => image_look d
        | None =>
            match l with
            | LRaw _ => chars (href_of l)
            | LDiary dt _ => text (bs "diary:" ++ date_display dt)
            | _ => text (lossy (percent_decode (uri_display (ld_uri (link_get_data l)))))
            end
        end).
  assert (B : R [] look body).
  { unfold look, body, description_or_fallback. destruct (ld_desc (link_get_data l)) as [[t|d]|] eqn:E.
    - apply R_text, escape_markup.
    - now apply R_transclusion.
    - destruct l; try (apply R_text, escape_markup); [apply R_text, attr_markup_free, F | now elim (NT d)]. }
  eapply R_conv; [| |eapply (R_open' [] look (bs "a") ((bs "href", href_of l) :: prop_attrs (ld_props (link_get_data l))) body)].
  - rewrite props_show. hnorm.
  - destruct l; try reflexivity. now elim (NT d).
  - is_plain.
  - discriminate.
  - constructor; [plain_attr; exact F | exact P].
  - exact B.
Qed.
Lemma R_link l : Forall good (link_raw l) -> R [] (link_look l) (link_html lossy rel_parse frag_parse cfg l).
Proof.
  intro G. destruct l; try (apply R_anchor; [discriminate | exact G]). apply R_transclusion.
  unfold link_raw in G. apply Forall_app in G. apply G.
Qed.

(** * Anchors *)

Lemma slug_attr t : free attr_markup (slug t).
Proof. apply escape_attr. Qed.
Lemma slug_markup t : free markup (slug t).
Proof. apply escape_markup. Qed.

Lemma id_open n a u : In n plain_names -> free attr_markup u -> Forall attr_fine a ->
  tok_ok (TkOpen n (a ++ id_attr u)) /\ tag_fine (TkOpen n (a ++ id_attr u)) /\
  (~ K (bs "id") -> attr_ids (a ++ id_attr u) = [u]).
Proof.
  intros N F A. destruct (attrs_fine a A) as (B & C & D). destruct (plain_name_ok n N) as [N1 N2].
  split; [|split].
  - cbn [tok_ok]. split; [exact N1|]. split; [exact N2|]. apply Forall_app. split; [exact B|].
    constructor; [|constructor]. unfold attr_ok. cbn [fst snd].
    destruct (plain_attr_ok (bs "id") ltac:(is_plain)). auto.
  - split; [now left|]. apply Forall_app. split; [exact C|]. constructor; [|constructor]. left. is_plain.
  - intro X. unfold attr_ids in *. rewrite filter_app, map_app, (D X). reflexivity.
Qed.

Definition front (h : history) (id : str) : list str :=
  match h with [] => [] | _ => [join (bs "-") (latest_below (deepest h + 1) h ++ [id])] end.
Lemma W_front st h id : hrel st h -> free attr_markup id -> W [] (front h id) h [] (front_span id) st.
Proof.
  intros H F. unfold front_span. apply W_headers. rewrite (hr_max _ _ H).
  destruct h as [|x h]; [now apply W_skip|]. cbn [front].
  rewrite (complete_id_path st (x :: h)) by exact H.
  eapply W_unique; [exact H | apply path_free; [apply (hr_free _ _ H) | exact F]|].
  intros u m Fu Hu. destruct (id_open (bs "span") [] u ltac:(is_plain) Fu (Forall_nil _)) as (A & B & C).
  eapply W_conv; [| |eapply (W_wrap [] [u] [] (x :: h) [] (bs "span") ([] ++ id_attr u) skip)].
  - unfold skip. hnorm.
  - reflexivity.
  - exact A.
  - exact B.
  - discriminate.
  - now apply W_skip.
  - intro X. rewrite (C X). constructor; constructor.
Qed.

Lemma R_bold t es ms body : R es ms body ->
  R (EvAnchor t :: es) (tag (bs "strong") [] ms) (deco_html lower Bold t body).
Proof.
  intros B st h H. cbn [deco_html]. cbn [requests fold_left event_history event_requests].
  cbn [app]. change (match h with [] => [] | _ => _ end) with (front h (slug t)).
  eapply W_unique; [exact H | apply slug_attr|]. intros u m Fu Hu.
  change [u] with ([] ++ [u]). change (tag (bs "strong") [] ms) with ([] ++ tag (bs "strong") [] ms).
  eapply W_seq; [apply W_front; [exact Hu | apply slug_attr]|].
  intros st1 H1. destruct (id_open (bs "strong") [] u ltac:(is_plain) Fu (Forall_nil _)) as (P1 & P2 & P3).
  eapply W_conv; [| |eapply (W_wrap [] [u]); [exact P1 | exact P2 | discriminate | now apply B|]].
  - hnorm.
  - reflexivity.
  - intro X. rewrite (P3 X). constructor; constructor.
Qed.
Lemma R_deco k t es ms body : R es ms body ->
  R (match k with Bold => [EvAnchor t] | _ => [] end ++ es) (deco_look k ms) (deco_html lower k t body).
Proof.
  intro B. destruct k; cbn [app deco_html deco_look].
  - now apply R_bold.
  - eapply R_conv; [| |eapply (R_tag es ms (bs "em") [] body); [vm_compute; reflexivity | exact B]]; [hnorm | reflexivity].
  - eapply R_conv; [| |eapply (R_tag es ms (bs "del") [] body); [vm_compute; reflexivity | exact B]]; [hnorm | reflexivity].
  - eapply R_conv; [| |eapply (R_tag es _ (bs "sup") []); [vm_compute; reflexivity |
      eapply (R_tag es ms (bs "small") [] body); [vm_compute; reflexivity | exact B]]]; [hnorm | reflexivity].
  - eapply R_conv; [| |eapply (R_tag es _ (bs "sub") []); [vm_compute; reflexivity |
      eapply (R_tag es ms (bs "small") [] body); [vm_compute; reflexivity | exact B]]]; [hnorm | reflexivity].
Qed.

Lemma Forall_flat_map_in {A B} (P : B -> Prop) (f : A -> list B) l x :
  Forall P (flat_map f l) -> In x l -> Forall P (f x).
Proof.
  intros H I. rewrite Forall_forall in *. intros y Y. apply H, in_flat_map. eauto.
Qed.

Lemma R_dcontent c : Forall good (dcontent_raw c) ->
  R (dcontent_events c) (dcontent_look c) (dcontent_html lower lossy rel_parse frag_parse cfg c).
Proof.
  induction c as [t|k cs IH|k|l] using dcontent_ind'; intro G; cbn [dcontent_raw dcontent_events dcontent_html] in *.
  - apply R_text, escape_markup.
  - cbn [SpecHtml.dcontent_look]. apply R_deco. apply R_each. intros x X. rewrite Forall_forall in IH. apply (IH x X).
    apply (Forall_flat_map_in good (fun x => dcontent_raw (l_val x)) cs x G X).
  - apply R_keyword.
  - now apply R_link.
Qed.

Lemma R_anchor_tag t : R [EvAnchor t] (tag (bs "span") [(bs "class", bs "tag")] (chars (slug t))) (tag_html lower t).
Proof.
  intros st h H. unfold tag_html. cbn [requests fold_left event_history event_requests]. cbn [app].
  change (match h with [] => [] | _ => _ end) with (front h (slug t)).
  eapply W_unique; [exact H | apply slug_attr|]. intros u m Fu Hu.
  change [u] with ([] ++ [u]). change (tag (bs "span") ?a ?ms) with ([] ++ tag (bs "span") a ms).
  eapply W_seq; [apply W_front; [exact Hu | apply slug_attr]|].
  intros st1 H1.
  assert (CF : Forall attr_fine [(bs "class", bs "tag")]).
  { constructor; [|constructor]. plain_attr. apply free_check. vm_compute. reflexivity. }
  destruct (id_open (bs "span") [(bs "class", bs "tag")] u ltac:(is_plain) Fu CF) as (P1 & P2 & P3).
  eapply W_conv; [| |eapply (W_wrap [] [u] [] h _ _ _ (out (slug t))); [exact P1 | exact P2 | discriminate |
    apply W_text; [exact H1 | apply slug_markup]|]].
  - hnorm.
  - reflexivity.
  - intro X. rewrite (P3 X). constructor; constructor.
Qed.

(** * Inline elements and blocks *)

Lemma R_comment s : free (bs ">") s -> R [] [MComment s] (out (bs "<!--" ++ s ++ bs "-->")).
Proof.
  intros F st h H. replace (bs "<!--" ++ s ++ bs "-->") with (show [TkComment s])
    by (cbn [show flat_map]; apply app_nil_r).
  apply W_out; [exact H| | | | |].
  - constructor; [exact F | constructor].
  - constructor; [|constructor]. split; [exact I | constructor].
  - intros stack rest. reflexivity.
  - intros stack rest _. reflexivity.
  - intros _. constructor.
Qed.
Lemma R_inline i : Forall good (inline_raw i) ->
  R (inline_events i) (inline_look i) (inline_html lower lossy rel_parse frag_parse cfg i).
Proof.
  destruct i; intro G; cbn [inline_raw inline_events inline_html SpecHtml.inline_look] in *.
  - apply R_text, escape_markup.
  - apply (R_dcontent (DCDeco k cs)). exact G.
  - apply R_keyword.
  - now apply R_link.
  - replace (map EvAnchor ts) with (flat_map (fun t => [EvAnchor t]) ts)
      by (clear; induction ts; cbn; congruence).
    apply R_each. intros. apply R_anchor_tag.
  - eapply R_conv; [| |eapply (R_tag [] _ (bs "code") [] (out (escape_html t)));
      [vm_compute; reflexivity | apply R_text, escape_markup]]; [hnorm | reflexivity].
  - eapply R_conv; [| |apply R_seq0; [apply (R_text (bs "\(")); apply free_check; vm_compute; reflexivity|];
      apply R_seq0; [apply R_text, escape_markup|]; apply (R_text (bs "\)")); apply free_check; vm_compute; reflexivity];
      [hnorm | reflexivity].
  - unfold comment_html. destruct (hc_comments cfg) eqn:E; [|apply R_skip]. destruct c as [t|ls].
    + eapply R_conv; [|reflexivity|apply (R_comment (bs " " ++ t ++ bs " "))].
      * rewrite <- !app_assoc. reflexivity.
      * rewrite !free_app. inversion G as [|? ? [X _]]; subst. cbn [raw_ok] in X.
        split; [apply free_check; vm_compute; reflexivity|]. split; [now apply X|].
        apply free_check; vm_compute; reflexivity.
    + eapply R_conv; [|reflexivity|apply (R_comment ([b_nl] ++ flat_map (fun l => l ++ [b_nl]) ls))].
      * rewrite (each_ext (fun l => out l ;; ln) (fun l => out (l ++ [b_nl])))
          by (intros; unfold ln; rewrite out_out; reflexivity).
        rewrite (each_out (fun l => l ++ [b_nl])). hnorm.
      * apply free_app. split; [apply free_check; vm_compute; reflexivity|].
        apply free_flat_map. intros l L. apply free_app.
        rewrite Forall_map, Forall_forall in G. destruct (G l L) as [X _]. cbn [raw_ok] in X.
        split; [now apply X | apply free_check; vm_compute; reflexivity].
Qed.
Lemma R_container c : Forall good (container_raw c) ->
  R (container_events c) (container_look c) (container_html lower lossy rel_parse frag_parse cfg c).
Proof.
  intro G. apply R_each. intros x X. apply R_inline.
  apply (Forall_flat_map_in good (fun x => inline_raw (l_val x)) c x G X).
Qed.

Lemma R_lines ls : R [] (flat_map text ls) (each (fun l => out (escape_html l) ;; ln) ls).
Proof. apply R_each0. intros l _. apply R_then_ln, R_text, escape_markup. Qed.
Lemma R_blockquote ls : R [] (block_look (BBlockquote ls)) (blockquote_html ls).
Proof.
  unfold blockquote_html. cbn [SpecHtml.block_look].
  set (body := if 1 <? length (line_groups ls) then each _ (line_groups ls) else _).
  set (look := if 1 <? length (line_groups ls) then _ else _).
  assert (B : R [] look body).
  { unfold body, look. destruct (1 <? length (line_groups ls)); [|apply R_lines].
    apply R_each0. intros g _. apply R_then_ln.
    eapply R_conv; [| |eapply (R_tag [] _ (bs "p") [] (out (escape_html (join (bs " ") (map str_trim g)))));
        [vm_compute; reflexivity | apply R_text, escape_markup]]; [hnorm | reflexivity]. }
  eapply R_conv; [| |eapply (R_tag [] _ (bs "blockquote") [] (ln ;; body));
    [vm_compute; reflexivity | apply R_ln_then; exact B]]; [hnorm | reflexivity].
Qed.

Notation container_html := (container_html lower lossy rel_parse frag_parse cfg).

Lemma R_deflist d : Forall good (block_raw (BDefList d)) ->
  R (block_events (BDefList d)) (block_look (BDefList d)) (deflist_html lower lossy rel_parse frag_parse cfg d).
Proof.
  intro G. cbn [block_raw block_events SpecHtml.block_look] in *. unfold deflist_html.
  set (body := each _ d).
  set (look := flat_map (fun x => tag _ _ _ ++ _) d).
  assert (B : R (flat_map (fun x => container_events (l_val (td_term (l_val x))) ++
             flat_map (fun y => container_events (l_val y)) (l_val (td_defs (l_val x)))) d) look body).
  { apply R_each. intros x X. apply (Forall_flat_map_in good _ d x G) in X.
    apply Forall_app in X. destruct X as [X1 X2].
    assert (D : R (flat_map (fun y => container_events (l_val y)) (l_val (td_defs (l_val x))))
       (flat_map (fun y => tag (bs "dd") [] (container_look (l_val y))) (l_val (td_defs (l_val x))))
       (each (fun y => out (bs "<dd>") ;; container_html (l_val y) ;; out (bs "</dd>") ;; ln)
            (l_val (td_defs (l_val x))))).
    { apply R_each. intros y Y.
      eapply R_conv; [| |apply R_then_ln; eapply (R_tag _ _ (bs "dd") []); [vm_compute; reflexivity |
         apply R_container; apply (Forall_flat_map_in good (fun y => container_raw (l_val y)) _ y X2 Y)]].
      - rewrite !hseq_assoc. reflexivity.
      - reflexivity. }
    eapply R_conv; [| |apply R_seq;
      [apply R_then_ln; eapply (R_tag _ _ (bs "dt") []); [vm_compute; reflexivity | apply R_container; exact X1]|
       exact D]].
    - rewrite !hseq_assoc. reflexivity.
    - reflexivity. }
  eapply R_conv; [| |eapply (R_tag _ _ (bs "dl") [] (ln ;; body)); [vm_compute; reflexivity |
    apply R_ln_then; exact B]]; [hnorm | reflexivity].
Qed.

Lemma head_name_ok k : let n := head_name k in n <> [] /\ free name_markup n /\ generator_name n.
Proof.
  cbv zeta. unfold head_name. split; [discriminate|]. split; [|right; eauto]. apply free_app.
  split; [apply free_check; vm_compute; reflexivity|].
  eapply Forall_impl; [|apply uint_str_digits]. intros b D I. cbn in I.
  repeat (destruct I as [<-|I]; [discriminate|]). exact I.
Qed.
Lemma latest_below_cons level t h : latest_below level ((level, t) :: h) = latest_below level h.
Proof.
  unfold latest_below. rewrite !flat_map_concat_map. f_equal. apply map_ext_in.
  intros k I. apply in_seq in I. cbn [latest]. destruct (level =? k) eqn:E; [|reflexivity].
  apply Nat.eqb_eq in E. lia.
Qed.
Lemma path_is_id level h id : str_eqb (join (bs "-") (latest_below level h ++ [id])) id =
  match latest_below level h with [] => true | _ => false end.
Proof.
  destruct (latest_below level h) as [|x l]; [apply str_eqb_refl|].
  apply not_true_is_false. intro E. apply str_eqb_eq in E. apply (f_equal (@length byte)) in E.
  rewrite <- flat_dash in E. cbn [flat_map] in E. rewrite !app_length in E. cbn in E. lia.
Qed.
Lemma elem_head k a ms : elem (head_name k) a ms = tag (head_name k) a ms.
Proof. reflexivity. Qed.

Lemma R_header x : Forall good (block_raw (BHeader x)) ->
  R (block_events (BHeader x)) (block_look (BHeader x)) (header_html lower lossy rel_parse frag_parse cfg x).
Proof.
  intro G. cbn [block_raw block_events] in *. apply R_container in G.
  intros st h H. unfold header_html. cbn [SpecHtml.block_look]. cbv zeta.
  cbn [requests fold_left event_history event_requests]. cbn [app].
  set (id := slug (container_display (h_content x))). set (lv := h_level x) in *.
  set (body := container_look (h_content x)) in *.
  eapply W_unique; [exact H | apply slug_attr|]. intros u m Fu Hu.
  change [u] with ([] ++ [u]).
  set (look := if (lv =? 1) && str_eqb (str_trim (container_display (h_content x))) (hc_toc cfg) then _ else _) at 1.
  change look with ([] ++ look).
  change (match latest_below lv h with [] => [] | _ => _ end ++ ?r)
    with ([] ++ (match latest_below lv h with [] => [] | path => [join (bs "-") (path ++ [id])] end ++ r)).
  eapply W_seq; [apply (W_insert h lv id); [exact Hu | apply slug_attr]|].
  intros st1 H1. destruct (head_name_ok lv) as (N1 & N2 & N3). set (n := head_name lv) in *.
  assert (IdK : bs "id" <> [] /\ free key_markup (bs "id")) by (apply plain_attr_ok; is_plain).
  assert (NP : n <> bs "pre") by discriminate.
  unfold look. clear look.
  destruct ((lv =? 1) && str_eqb (str_trim (container_display (h_content x))) (hc_toc cfg)) eqn:T.
  - apply andb_true_iff in T. destruct T as [T _]. apply Nat.eqb_eq in T.
    assert (L : latest_below lv h = []) by (rewrite T; reflexivity). rewrite L. cbn [app].
    assert (A : tok_ok (TkOpen n (id_attr u))).
    { cbn [tok_ok id_attr]. split; [exact N1|]. split; [exact N2|]. constructor; [|constructor].
      unfold attr_ok. cbn [fst snd]. tauto. }
    assert (B : tag_fine (TkOpen n (id_attr u))).
    { split; [exact N3|]. constructor; [|constructor]. left. is_plain. }
    assert (S1 : static (bs "div") [(bs "class", bs "toc")] = true) by (vm_compute; reflexivity).
    apply static_parts in S1. destruct S1 as (Hn & Ha & Hi & Hp). destruct (open_parts _ _ Hn Ha) as [P1 P2].
    eapply W_conv; [| |eapply (W_wrap [u] [u]); [exact P1 | exact P2 | exact Hp |
       eapply (W_wrap [] [u]); [exact A | exact B | exact NP | now apply G | reflexivity] | reflexivity]].
    + unfold n, head_name. hnorm.
    + reflexivity.
  - apply W_headers. rewrite (complete_id_path st1 ((lv, id) :: h)) by exact H1.
    rewrite latest_below_cons, path_is_id. fold id.
    assert (RR : forall u' st2, free attr_markup u' -> hrel st2 ((lv, id) :: h) ->
      W [u] (reqs ((lv, id) :: h) (container_events (h_content x)))
            (after (container_events (h_content x)) ((lv, id) :: h))
            (tag n [(bs "class", bs "header")] (tag (bs "a") [] body))
        (out (bs "<h" ++ dec (N.of_nat lv) ++ bs " id=""" ++ u ++ bs """ class=""header"">")
             ;; out (bs "<a href=""#" ++ u' ++ bs """>")
             ;; container_html (h_content x)
             ;; out (bs "</a></h" ++ dec (N.of_nat lv) ++ bs ">")) st2).
    { intros u' st2 Fu' H2.
      assert (A : tok_ok (TkOpen n (id_attr u ++ [(bs "class", bs "header")]))).
      { cbn [tok_ok id_attr app]. split; [exact N1|]. split; [exact N2|].
        constructor; [unfold attr_ok; cbn [fst snd]; tauto|]. constructor; [|constructor].
        unfold attr_ok; cbn [fst snd]. destruct (plain_attr_ok (bs "class") ltac:(is_plain)).
        split; [assumption|]. split; [assumption|]. apply free_check. vm_compute. reflexivity. }
      assert (B : tag_fine (TkOpen n (id_attr u ++ [(bs "class", bs "header")]))).
      { split; [exact N3|]. constructor; [left; is_plain|]. constructor; [left; is_plain | constructor]. }
      assert (F2 : Forall attr_fine [(bs "href", bs "#" ++ u')]).
      { constructor; [|constructor]. plain_attr. apply free_app. split; [|exact Fu'].
        apply free_check. vm_compute. reflexivity. }
      assert (PA : bs "a" <> bs "pre") by discriminate.
      pose proof (R_open' _ _ (bs "a") _ _ ltac:(is_plain) PA F2 G st2 _ H2) as RA.
      eapply W_conv; [| |eapply (W_wrap [] [u]); [exact A | exact B | exact NP | exact RA | reflexivity]].
      - unfold n, head_name. hnorm.
      - reflexivity. }
    destruct (latest_below lv h) as [|y path] eqn:L.
    + cbn [app]. now apply RR.
    + cbn [app]. eapply W_unique; [exact H1 | |].
      * change (y :: path ++ [id]) with ((y :: path) ++ [id]). rewrite <- L.
        apply path_free; [apply (hr_free _ _ H) | apply slug_attr].
      * intros u' m' Fu' H2. destruct (id_open (bs "div") [] u' ltac:(is_plain) Fu' (Forall_nil _)) as (P1 & P2 & P3).
        eapply W_conv; [| |eapply (W_wrap [u] [u'; u]); [exact P1 | exact P2 | discriminate | apply (RR u' _ Fu' H2) |]].
        -- cbv zeta. fold lv. hnorm.
        -- reflexivity.
        -- intro X. rewrite (P3 X). reflexivity.
Qed.

Lemma R_par_lines sep ms ls : R [] ms (out sep) -> Forall good (flat_map container_raw ls) ->
  R (flat_map container_events ls) (between ms (map container_look ls))
    (par_lines lower lossy rel_parse frag_parse cfg sep ls).
Proof.
  intros S1. induction ls as [|l ls IH]; intro G; [apply R_skip|].
  cbn [flat_map] in *. apply Forall_app in G. destruct G as [G1 G2].
  destruct ls as [|l2 ls]; [cbn [flat_map]; rewrite app_nil_r; now apply R_container|].
  change (par_lines lower lossy rel_parse frag_parse cfg sep (l :: l2 :: ls))
    with (container_html l ;; out sep ;; par_lines lower lossy rel_parse frag_parse cfg sep (l2 :: ls)).
  change (between ms (map container_look (l :: l2 :: ls)))
    with (container_look l ++ ms ++ between ms (map container_look (l2 :: ls))).
  apply R_seq; [now apply R_container|]. apply R_seq0; [exact S1|]. now apply IH.
Qed.
Lemma is_blank_spec ls : is_blank ls = only_comments ls.
Proof.
  unfold is_blank, only_comments. induction ls as [|l ls IH]; [reflexivity|]. cbn [existsb forallb].
  rewrite <- IH, negb_orb. f_equal. clear. induction l as [|x l IH]; [reflexivity|]. cbn [existsb forallb].
  rewrite <- IH, negb_orb. f_equal. unfold is_comment. destruct (l_val x); reflexivity.
Qed.
Lemma R_paragraph ls : Forall good (flat_map container_raw ls) ->
  R (flat_map container_events ls) (block_look (BParagraph ls)) (paragraph_html lower lossy rel_parse frag_parse cfg ls).
Proof.
  intro G. unfold paragraph_html. cbn [SpecHtml.block_look]. cbv zeta.
  assert (S1 : R [] (if hc_par_ignore cfg then chars (bs " ") else [MVoid (bs "br") []])
                 (out (if hc_par_ignore cfg then bs " " else bs "<br />"))).
  { destruct (hc_par_ignore cfg); [apply R_text, free_check; vm_compute; reflexivity|].
    apply (R_void' (bs "br") []); [is_plain | constructor]. }
  apply (R_par_lines _ _ _ S1) in G. rewrite is_blank_spec. destruct (only_comments ls); [exact G|].
  eapply R_conv; [| |eapply (R_tag _ _ (bs "p") []); [vm_compute; reflexivity | exact G]]; [hnorm | reflexivity].
Qed.

Lemma span_show name n : heq (span_attr name n) (out (show_attrs (span_look name n))).
Proof.
  unfold span_attr, span_look. destruct (1 <? n); [|reflexivity].
  unfold show_attrs. cbn [flat_map]. rewrite app_nil_r. reflexivity.
Qed.
Lemma span_fine name n : existsb (str_eqb name) plain_attrs = true -> str_eqb name (bs "id") = false ->
  Forall attr_fine (span_look name n).
Proof.
  intros A B. unfold span_look. destruct (1 <? n); [|constructor]. constructor; [|constructor].
  apply attr_fine_plain; auto. apply dec_free.
Qed.
Notation cell_look := (cell_look slug lossy href_of cfg).
Notation row_look := (row_look slug lossy href_of cfg).
Notation rows_look := (rows_look slug lossy href_of cfg).
Lemma elem_shown n a ms : kind_of n a = Shown -> elem n a ms = tag n a ms.
Proof. unfold elem. now intros ->. Qed.
Lemma R_cell tg t r x : tg = bs "th" \/ tg = bs "td" -> Forall good (cell_raw (l_val (snd x))) ->
  R (cell_events (l_val (snd x))) (cell_look tg t r (fst x) (snd x))
    (cell_html lower lossy rel_parse frag_parse cfg tg t r x).
Proof.
  intros N G. unfold cell_html, SpecHtml.cell_look. destruct (l_val (snd x)) as [c| |]; [|apply R_skip|apply R_skip].
  cbn [cell_raw cell_events] in *.
  eapply R_conv; [| |apply R_then_ln; eapply (R_open' _ _ tg
     (span_look (bs "rowspan") (get_cell_rowspan t r (fst x)) ++ span_look (bs "colspan") (get_cell_colspan t r (fst x))));
     [destruct N as [->| ->]; is_plain | destruct N as [->| ->]; discriminate
     | apply Forall_app; split; apply span_fine; vm_compute; reflexivity | apply R_container; exact G]].
  - rewrite !span_show. unfold show_tok, show_attrs. rewrite flat_map_app. hnorm.
  - apply elem_shown. destruct N as [->| ->]; reflexivity.
Qed.
Lemma get_cell_in t r c x : get_cell t r c = Some x -> exists p, In (p, x) (t_cells t).
Proof.
  unfold get_cell. induction (t_cells t) as [|[p y] l IH]; cbn [cells_get]; [discriminate|].
  destruct (cellpos_eqb _ _); [intros [= <-]; eexists; now left|].
  intro E. destruct (IH E) as [q I]. exists q. now right.
Qed.
Lemma walk_in get : forall fuel i x, In x (walk fuel get i) -> exists c, get c = Some x.
Proof.
  induction fuel as [|f IH]; intros i x H; [contradiction|]. cbn [walk] in H.
  destruct (get i) eqn:E; [|contradiction]. destruct H as [<-|H]; eauto.
Qed.
Lemma row_good t r x : Forall good (block_raw (BTable t)) -> In x (row t r) -> Forall good (cell_raw (l_val x)).
Proof.
  intros G I. unfold row in I. apply walk_in in I. destruct I as [c I]. apply get_cell_in in I. destruct I as [p I].
  apply (Forall_flat_map_in good (fun x => cell_raw (l_val (snd x))) (t_cells t) (p, x) G I).
Qed.
Lemma enumerate_events (f : located cell -> list event) l :
  flat_map (fun x => f (snd x)) (enumerate l) = flat_map f l.
Proof.
  unfold enumerate. generalize 0. induction l as [|x l IH]; intro n; [reflexivity|].
  cbn [length seq combine flat_map snd]. now rewrite IH.
Qed.
Lemma R_row tg t r : tg = bs "th" \/ tg = bs "td" -> Forall good (block_raw (BTable t)) ->
  R (flat_map (fun x => cell_events (l_val x)) (row t r)) (row_look tg t r)
    (row_html lower lossy rel_parse frag_parse cfg tg t r).
Proof.
  intros N G. unfold row_html, SpecHtml.row_look, row_has_content.
  destruct (existsb (fun c => is_content (l_val c)) (row t r)) eqn:E.
  - eapply R_conv; [| |apply R_then_ln; eapply (R_tag _ _ (bs "tr") [] (ln ;; each (cell_html lower lossy rel_parse frag_parse cfg tg t r) (enumerate (row t r))));
      [vm_compute; reflexivity|]].
    + hnorm.
    + reflexivity.
    + apply R_ln_then.
      rewrite <- (enumerate_events (fun x => cell_events (l_val x))).
      apply (R_each (fun x => cell_events (l_val (snd x))) (fun x => cell_look tg t r (fst x) (snd x))). intros [i x] I.
      apply R_cell; [exact N|]. cbn [snd]. apply (row_good t r x G). apply ProofPath.enumerate_in in I.
      eapply nth_error_In; eauto.
  - replace (flat_map (fun x => cell_events (l_val x)) (row t r)) with (@nil event); [apply R_skip|].
    induction (row t r) as [|x l IH]; [reflexivity|]. cbn [existsb flat_map] in *.
    apply orb_false_iff in E. destruct E as [E1 E2]. destruct (l_val x); [discriminate| |]; now apply IH.
Qed.
Lemma R_section name tg t rs : static name [] = true -> kind_of name [] = Shown ->
  tg = bs "th" \/ tg = bs "td" -> Forall good (block_raw (BTable t)) ->
  R (flat_map (fun r => flat_map (fun x => cell_events (l_val x)) (row t r)) rs) (rows_look name tg t rs)
    (section_html lower lossy rel_parse frag_parse cfg name tg t rs).
Proof.
  intros S1 S2 N G. unfold section_html, SpecHtml.rows_look.
  assert (B : R (flat_map (fun r => flat_map (fun x => cell_events (l_val x)) (row t r)) rs)
                (flat_map (row_look tg t) rs)
                (each (row_html lower lossy rel_parse frag_parse cfg tg t) rs)).
  { apply R_each. intros r _. now apply R_row. }
  destruct rs as [|r rs]; [apply R_skip|]. revert B. generalize (r :: rs) as l. intros l B.
  eapply R_conv; [| |apply R_then_ln; eapply (R_tag _ _ name [] (ln ;; each (row_html lower lossy rel_parse frag_parse cfg tg t) l));
      [exact S1 | apply R_ln_then; exact B]].
  - hnorm.
  - now apply elem_shown.
Qed.
Lemma R_table t : Forall good (block_raw (BTable t)) ->
  R (block_events (BTable t)) (block_look (BTable t)) (table_html lower lossy rel_parse frag_parse cfg t).
Proof.
  intro G. cbn [block_events]. unfold table_html. rewrite flat_map_app.
  assert (B := R_seq _ _ _ _ _ _
     (R_section (bs "thead") (bs "th") t (header_rows t) eq_refl eq_refl (or_introl eq_refl) G)
     (R_section (bs "tbody") (bs "td") t (body_rows t) eq_refl eq_refl (or_intror eq_refl) G)).
  assert (B' := R_ln_then _ _ _ B). clear B.
  eapply R_conv; [| |eapply (R_tag _ _ (bs "table") (if t_centered t then [(bs "class", bs "center")] else [])); [|exact B']].
  - destruct (t_centered t); hnorm.
  - reflexivity.
  - destruct (t_centered t); vm_compute; reflexivity.
Qed.

Lemma R_math m : Forall good (block_raw (BMath m)) -> R [] (block_look (BMath m)) (math_html m).
Proof.
  intro G. unfold math_html. cbn [SpecHtml.block_look]. pose proof (R_lines (mb_lines m)) as B.
  cbn [block_raw] in G. destruct (mb_env m) as [e|].
  - inversion G as [|? ? [X _]]; subst. cbn [raw_ok] in X.
    apply R_seq0; [apply R_text; rewrite !free_app; split; [apply free_check; vm_compute; reflexivity|];
      split; [exact X | apply free_check; vm_compute; reflexivity]|].
    apply R_ln_then. apply R_seq0; [exact B|].
    apply R_text; rewrite !free_app; split; [apply free_check; vm_compute; reflexivity|];
      split; [exact X | apply free_check; vm_compute; reflexivity].
  - apply R_seq0; [apply (R_text (bs "\[")), free_check; vm_compute; reflexivity|].
    apply R_ln_then. apply R_seq0; [exact B|]. apply (R_text (bs "\]")), free_check; vm_compute; reflexivity.
Qed.
Lemma R_placeholder p : R [] [] (placeholder_html p).
Proof.
  intros st h [A B C] st' o E. exists [], []. cbn [requests fold_left].
  destruct p; cbn in E; injection E as <- <-;
    (split; [reflexivity|]; split; [constructor|]; split; [constructor|]; split; [intros ? ?; reflexivity|];
     split; [intros ? ? ?; reflexivity|];
     split; [reflexivity|]; split; [constructor|]; constructor; assumption).
Qed.

(** Code: the text of [pre] is taken as it is. *)
Lemma R_code c : Forall good (block_raw (BCode c)) -> R [] (block_look (BCode c)) (code_html highlight cfg c).
Proof.
  intro G. cbn [block_raw] in G. apply Forall_app in G. destruct G as [G1 G2].
  set (cls := match cb_lang c with Some l => [(bs "class", l)] | None => [] end).
  set (s := join [b_nl] (map escape_html (cb_lines c))).
  assert (F : Forall attr_fine (cls ++ cb_meta c)).
  { apply Forall_app. split.
    + unfold cls. destruct (cb_lang c); [|constructor]. inversion G1 as [|? ? [X _]]; subst.
      constructor; [|constructor]. plain_attr. exact X.
    + apply Forall_forall. intros [k v] I. apply (Forall_flat_map_in good _ _ (k, v) G2) in I. cbn [fst snd] in I.
      destruct (Forall_inv I) as [[X1 X2] X3]. destruct (Forall_inv (Forall_inv_tail I)) as [X4 _].
      split; [exact X4|]. right. auto. }
  assert (S1 : free markup s).
  { apply free_join; [apply free_check; vm_compute; reflexivity|].
    apply Forall_map, Forall_forall. intros l _. apply escape_markup. }
  destruct (attrs_fine _ F) as (A & B & C).
  destruct (plain_name_ok (bs "pre") ltac:(is_plain)) as [PN1 PN2].
  destruct (plain_name_ok (bs "code") ltac:(is_plain)) as [CN1 CN2].
  set (ts := [TkOpen (bs "pre") []; TkOpen (bs "code") (cls ++ cb_meta c); TkText s; TkClose (bs "code"); TkClose (bs "pre")]).
  eapply R_conv; [| |intros st h H; apply (W_out h ts (block_look (BCode c)) st H)].
  - unfold code_html. rewrite client_side. fold s.
    rewrite (each_out (fun kv : str * str => bs " " ++ fst kv ++ bs "=""" ++ snd kv ++ bs """")).
    change (flat_map (fun kv : str * str => bs " " ++ fst kv ++ bs "=""" ++ snd kv ++ bs """") (cb_meta c))
      with (show_attrs (cb_meta c)).
    unfold ts, show. cbn [flat_map]. unfold cls. destruct (cb_lang c); hnorm.
  - reflexivity.
  - constructor; [cbn; auto|]. constructor; [cbn; auto|]. constructor; [exact S1|].
    constructor; [cbn; auto|]. constructor; [cbn; auto|]. constructor.
  - assert (X1 : generator_name (bs "pre")) by (left; is_plain).
    assert (X2 : generator_name (bs "code")) by (left; is_plain).
    constructor; [split; [exact X1 | constructor]|]. constructor; [split; [exact X2 | exact B]|].
    constructor; [apply tag_text|]. constructor; [split; [exact X2 | constructor]|].
    constructor; [split; [exact X1 | constructor]|]. constructor.
  - intros stack rest. reflexivity.
  - intros stack rest _. cbn [ts app marks SpecHtml.block_look tag shown filter]. fold cls s.
    change (kind_of (bs "pre") []) with Pre. change (kind_of (bs "code") (cls ++ cb_meta c)) with Shown.
    cbn [app tl in_pre existsb orb]. unfold tag. cbn [app shown filter]. f_equal. f_equal.
    rewrite <- !app_assoc. reflexivity.
  - intro X. unfold ts, ids. cbn [flat_map tk_attrs attr_ids filter map app]. rewrite app_nil_r.
    fold (attr_ids (cls ++ cb_meta c)). rewrite (C X). constructor.
Qed.

Theorem R_block b : Forall good (block_raw b) ->
  R (block_events b) (block_look b) (block_html lower lossy highlight rel_parse frag_parse cfg b).
Proof.
  apply (block_ind'
    (fun b => Forall good (block_raw b) -> R (block_events b) (block_look b) (block_html lower lossy highlight rel_parse frag_parse cfg b))
    (fun i => Forall good (item_raw i) -> R (item_events i) (item_look i) (item_html lower lossy highlight rel_parse frag_parse cfg i))).
  - intros b' NL G. destruct b'.
    + apply R_blockquote.
    + now apply R_deflist.
    + apply (R_void' (bs "hr") []); [is_plain | constructor].
    + now apply R_header.
    + now elim (NL items).
    + now apply R_math.
    + now apply R_paragraph.
    + apply R_placeholder.
    + now apply R_code.
    + now apply R_table.
  - intros items IH G. cbn [block_raw block_events block_html SpecHtml.block_look] in *. cbv zeta.
    change (match items with i :: _ => match li_ty (l_val i) with TOrdered _ => true | _ => false end | [] => false end)
      with (is_ordered_list items).
    set (body := each (fun i => item_html lower lossy highlight rel_parse frag_parse cfg (l_val i) ;; ln) items).
    assert (B : R (flat_map (fun i => item_events (l_val i)) items)
                  (flat_map (fun i => item_look (l_val i)) items) (ln ;; body)).
    { apply R_ln_then. apply R_each. intros x X. apply R_then_ln.
      rewrite Forall_forall in IH. apply (IH x X).
      apply (Forall_flat_map_in good (fun i => item_raw (l_val i)) items x G X). }
    eapply R_conv; [| |eapply (R_tag _ _ (if is_ordered_list items then bs "ol" else bs "ul") [] (ln ;; body)); [|exact B]].
    + destruct (is_ordered_list items); hnorm.
    + destruct (is_ordered_list items); reflexivity.
    + destruct (is_ordered_list items); vm_compute; reflexivity.
  - intros ty suf pos cs todo IH G. cbn [item_raw item_events item_html SpecHtml.item_look] in *.
    set (body := each (fun x => block_html lower lossy highlight rel_parse frag_parse cfg (l_val x)) cs).
    assert (B : R (flat_map (fun x => block_events (l_val x)) cs) (flat_map (fun x => block_look (l_val x)) cs) body).
    { apply R_each. intros x X. rewrite Forall_forall in IH. apply (IH x X).
      apply (Forall_flat_map_in good (fun x => block_raw (l_val x)) cs x G X). }
    eapply R_conv; [| |eapply (R_tag _ _ (bs "li") (todo_class todo) body); [|exact B]].
    + destruct todo as [[]|]; hnorm.
    + reflexivity.
    + destruct todo as [[]|]; vm_compute; reflexivity.
Qed.

Theorem R_page p : Forall good (page_raw p) ->
  R (page_events p) (page_look p) (page_html lower lossy highlight rel_parse frag_parse cfg p).
Proof.
  intro G. apply R_each. intros x X. apply R_then_ln. apply R_block.
  apply (Forall_flat_map_in good (fun x => block_raw (l_val x)) p x G X).
Qed.
End Render.
