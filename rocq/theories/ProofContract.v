(** The parser contract.

    Fixed (see [env]): the input bytes [inner]; a notion of boundary [bd] on byte offsets
    (instantiated with "everything" or with UTF-8 character boundaries); and a
    proposition [pan] that holds if panics are tolerated.

    [R s r Q]: if [r] is the result of a parser on [s], it is not [OutOfFuel];
    if it panics then [pan]; if it is [Ok s' a] then [s'] is a suffix of [s]
    starting at a boundary and [Q s' a]. *)
From Verif Require Import Base ModelSpan ModelComb ModelAst ModelLink ModelInline ModelBlock
  SpecDoc ProofBase ProofBytes.

(** The last byte of a markup construct after which inline text may begin in
    the middle of a word. *)
Definition seam_byte (b : byte) : bool :=
  existsb (beqb b) (bs "*_~^,`$]}%=|").

(** Inline text may begin at [t] although [t] is inside a word. *)
Definition cut_at (inner : str) (t : nat) : Prop :=
  (exists b, nth_error inner (t - 1) = Some b /\ seam_byte b = true) \/
  (exists k, length (kw_str k) <= t /\ slice (t - length (kw_str k)) t inner = kw_str k).

(** Everything the parser proofs are relative to: the input, the two external
    parsers, the boundary predicate and its closure properties, and the
    circumstances in which a panic is tolerated. *)
Record env := Env {
  e_inner : str;
  e_uri : str -> option uri;
  e_date : str -> option date;
  e_bd : nat -> Prop;
  e_bd_0 : e_bd 0;
  e_bd_at : forall i b, nth_error e_inner i = Some b -> is_ascii b = true -> e_bd i;
  e_bd_after : forall i b, nth_error e_inner i = Some b -> is_ascii b = true -> e_bd (S i);
  e_pan : Prop;
  (** A word begins at [i] with a raw link, and inline text begins at [t],
      inside that word but before its colon at [k]. *)
  e_pan_text : forall i t k j u,
    (i = 0 \/ exists b, nth_error e_inner (i - 1) = Some b /\ is_ascii_ws b = true) ->
    i < t -> t <= k -> nth_error e_inner k = Some x3a ->
    Forall (fun b => is_ascii_ws b = false) (slice i k e_inner) ->
    cut_at e_inner t -> k < j ->
    Forall (fun b => is_space b = false /\ is_nl b = false) (slice i j e_inner) ->
    e_uri (slice i j e_inner) = Some u -> is_raw_scheme u = true -> e_pan;
  (** A diary link whose anchor is not a URI reference. *)
  e_pan_diary : forall lo hi body oa,
    surrounded_by e_inner (bs "[[") (bs "]]") lo hi body ->
    starts_with (bs "diary:") body = true ->
    (oa = None \/ exists i j a, oa = Some a /\ anchor_from_fragment (slice i j body) = Some a) ->
    e_uri (match oa with Some a => anchor_to_fragment a | None => [] end) = None -> e_pan;
  (** A line of a code or math block cut inside a character. *)
  e_pan_dedent : forall lo hi n,
    no_nl (slice lo hi e_inner) -> dedent_line n (slice lo hi e_inner) = None -> e_pan
}.

Existing Class env.

Section Contract.
Context {EV : env}.
Local Notation inner := (e_inner EV).
Local Notation bd := (e_bd EV).
Local Notation bd_0 := (e_bd_0 EV).
Local Notation bd_at := (e_bd_at EV).
Local Notation bd_after := (e_bd_after EV).
Local Notation pan := (e_pan EV).
Local Hint Resolve e_bd_0 : core.
Local Hint Extern 2 (e_bd _ _) => (eapply e_bd_at; eassumption) : core.
Local Hint Extern 2 (e_bd _ (S _)) => (eapply e_bd_after; eassumption) : core.

Definition sok (s : span) : Prop :=
  sp_inner s = inner /\ sp_start s <= sp_end s /\ sp_end s <= length inner /\
  bd (sp_start s) /\ bd (sp_end s).

Definition adv (s s' : span) : Prop :=
  sp_inner s' = inner /\ sp_end s' = sp_end s /\ sp_depth s' = sp_depth s /\
  sp_start s <= sp_start s' /\ sp_start s' <= sp_end s /\ bd (sp_start s').

Definition R {A} (s : span) (r : res A) (Q : span -> A -> Prop) : Prop :=
  match r with
  | Ok s' a => adv s s' /\ Q s' a
  | Err => True
  | Panic => pan
  | OutOfFuel => False
  end.

Definition G {A} (n : nat) (p : parser A) (Q : span -> span -> A -> Prop) : Prop :=
  forall s, sok s -> remaining_len s < n -> R s (p s) (Q s).

(** The text between two positions, and the span covering it. *)
Definition txt (s s' : span) : str := slice (sp_start s) (sp_start s') inner.
Definition cov (s s' : span) : span := Span inner (sp_start s) (sp_start s') (sp_depth s).

(** * Basic facts *)

Lemma rl_eq s : sok s -> remaining_len s = sp_end s - sp_start s.
Proof. intros (_ & H & _). unfold remaining_len. now apply Nat.leb_le in H as ->. Qed.

Lemma sok_bd s : sok s -> bd (sp_start s).
Proof. intros (_ & _ & _ & H & _). exact H. Qed.
Lemma adv_bd s s' : adv s s' -> bd (sp_start s').
Proof. intros (_ & _ & _ & _ & _ & H). exact H. Qed.

Lemma adv_refl s : sok s -> adv s s.
Proof. intros (H1 & H2 & H3 & H4 & H5). repeat split; auto. Qed.

Lemma adv_trans s s1 s2 : adv s s1 -> adv s1 s2 -> adv s s2.
Proof.
  unfold adv. intros (H1 & H2 & H3 & H4 & H5 & H6) (K1 & K2 & K3 & K4 & K5 & K6).
  repeat split; try congruence; try lia; auto.
Qed.

Lemma adv_sok s s' : sok s -> adv s s' -> sok s'.
Proof.
  intros (H1 & H2 & H3 & H4 & H5) (K1 & K2 & K3 & K4 & K5 & K6).
  repeat split; try congruence; try lia; auto; rewrite ?K2; auto.
Qed.

Lemma adv_rl s s' : sok s -> adv s s' -> remaining_len s' <= remaining_len s.
Proof.
  intros H K. rewrite (rl_eq s), (rl_eq s') by eauto using adv_sok.
  destruct K as (K1 & K2 & K3 & K4 & K5 & K6). lia.
Qed.

Lemma adv_rl_lt s s' :
  sok s -> adv s s' -> sp_start s < sp_start s' -> remaining_len s' < remaining_len s.
Proof.
  intros H K L. rewrite (rl_eq s), (rl_eq s') by eauto using adv_sok.
  destruct K as (K1 & K2 & K3 & K4 & K5 & K6). lia.
Qed.

Lemma txt_length s s' : sok s -> adv s s' -> length (txt s s') = sp_start s' - sp_start s.
Proof.
  intros (H1 & H2 & H3 & H4 & H5) (K1 & K2 & K3 & K4 & K5 & K6).
  unfold txt. apply slice_length. lia.
Qed.

Lemma txt_app s s1 s2 : adv s s1 -> adv s1 s2 -> txt s s2 = txt s s1 ++ txt s1 s2.
Proof.
  intros (_ & _ & _ & K & _) (_ & _ & _ & K' & _). unfold txt. now apply slice_app.
Qed.

Lemma txt_same s s' : sp_start s' = sp_start s -> txt s s' = [].
Proof. intro H. unfold txt. apply slice_nil. lia. Qed.

Lemma remaining_eq s : sok s -> remaining s = slice (sp_start s) (sp_end s) inner.
Proof. intros (H & _). unfold remaining. now rewrite H. Qed.

Lemma remaining_length s : sok s -> length (remaining s) = sp_end s - sp_start s.
Proof. intro H. rewrite remaining_eq by auto. apply slice_length. destruct H; tauto. Qed.

Lemma nth_remaining s k b :
  sok s -> nth_error (remaining s) k = Some b ->
  nth_error inner (sp_start s + k) = Some b /\ sp_start s + k < sp_end s.
Proof.
  intros H K. assert (k < length (remaining s)) by (apply nth_error_Some; congruence).
  rewrite remaining_length in * by auto. rewrite remaining_eq in K by auto.
  rewrite nth_error_slice in K by lia. split; [auto | lia].
Qed.

Lemma firstn_remaining s k :
  sok s -> k <= remaining_len s ->
  firstn k (remaining s) = slice (sp_start s) (sp_start s + k) inner.
Proof.
  intros H K. rewrite remaining_eq by auto. rewrite rl_eq in K by auto.
  apply firstn_slice. destruct H as (_ & H & _). lia.
Qed.

Lemma sok_ext s s' :
  sok s -> sok s' -> sp_start s = sp_start s' -> sp_end s = sp_end s' ->
  sp_depth s = sp_depth s' -> s = s'.
Proof.
  intros (H & _) (K & _). destruct s, s'; simpl in *. intros. congruence.
Qed.

Lemma span_eqb_start s s' :
  sok s -> adv s s' -> span_eqb s' s = false -> sp_start s < sp_start s'.
Proof.
  intros (H & _) (K1 & K2 & K3 & K4 & _) E.
  destruct (Nat.eq_dec (sp_start s) (sp_start s')); [|lia].
  exfalso. unfold span_eqb in E.
  rewrite K2, K3, K1, H, e, !Nat.eqb_refl, str_eqb_refl in E. discriminate.
Qed.

(** Where a boundary is known. *)
Definition bd_known (l : str) (k : nat) : Prop :=
  k = 0 \/ k = length l \/
  (exists b, nth_error l k = Some b /\ is_ascii b = true) \/
  (exists k' b, k = S k' /\ nth_error l k' = Some b /\ is_ascii b = true).

Lemma bd_rel s k :
  sok s -> bd_known (remaining s) k -> bd (sp_start s + k).
Proof.
  intros H [->|[->|[[b [K1 K2]]|[k' [b [-> [K1 K2]]]]]]].
  - rewrite Nat.add_0_r. apply H.
  - rewrite remaining_length by auto. destruct H as (_ & H1 & _ & _ & H2).
    now replace (sp_start s + (sp_end s - sp_start s)) with (sp_end s) by lia.
  - apply nth_remaining in K1 as [K1 _]; auto; eauto.
  - apply nth_remaining in K1 as [K1 _]; auto.
    replace (sp_start s + S k') with (S (sp_start s + k')) by lia. eauto.
Qed.

Lemma advance_start_eq k s :
  sok s -> k <= remaining_len s ->
  advance_start_by k s = Span inner (sp_start s + k) (sp_end s) (sp_depth s).
Proof.
  intros H K. rewrite rl_eq in K by auto. destruct H as (H1 & H2 & _).
  unfold advance_start_by. rewrite H1.
  destruct (sp_end s <? sp_start s + k) eqn:E; [apply Nat.ltb_lt in E; lia | reflexivity].
Qed.

Lemma adv_advance k s :
  sok s -> k <= remaining_len s -> bd (sp_start s + k) ->
  adv s (Span inner (sp_start s + k) (sp_end s) (sp_depth s)).
Proof.
  intros H K L. rewrite rl_eq in K by auto. destruct H as (H1 & H2 & _).
  repeat split; simpl; auto; lia.
Qed.

Lemma R_ok_split k s (Q : span -> span -> Prop) :
  sok s -> k <= remaining_len s -> bd_known (remaining s) k ->
  (forall s', adv s s' -> sp_start s' = sp_start s + k -> Q s' (cov s s')) ->
  R s (ok_split k s) Q.
Proof.
  intros H K L HQ. unfold ok_split. rewrite advance_start_eq by auto.
  assert (Ha := adv_advance k s H K (bd_rel _ _ H L)).
  split; auto. specialize (HQ _ Ha eq_refl). unfold cov in HQ. simpl in HQ.
  unfold advance_end_by. destruct H as (-> & _). exact HQ.
Qed.

(** * Combinators *)

Lemma R_weaken {A} s (r : res A) (Q Q' : span -> A -> Prop) :
  R s r Q -> (forall s' a, adv s s' -> Q s' a -> Q' s' a) -> R s r Q'.
Proof. unfold R. destruct r; auto. intros [H1 H2] H. split; auto. Qed.

Lemma G_weaken {A} n (p : parser A) (Q Q' : span -> span -> A -> Prop) :
  G n p Q -> (forall s s' a, sok s -> adv s s' -> Q s s' a -> Q' s s' a) -> G n p Q'.
Proof. intros H HQ s Hs Hn. eapply R_weaken; [now apply H | intros; now apply HQ]. Qed.

Lemma G_le {A} n m (p : parser A) Q : m <= n -> G n p Q -> G m p Q.
Proof. intros H K s Hs Hn. apply K; auto. lia. Qed.

Lemma R_bind {A B} s (r : res A) (k : span -> A -> res B) Q1 Q :
  R s r Q1 ->
  (forall s1 a, adv s s1 -> Q1 s1 a -> R s1 (k s1 a) Q) ->
  R s (bind r k) Q.
Proof.
  unfold R at 1. destruct r as [s1 a| | |]; simpl; auto. intros [H1 H2] H.
  specialize (H s1 a H1 H2). unfold R in *. destruct (k s1 a); auto.
  destruct H as [H3 H4]. split; auto. eapply adv_trans; eauto.
Qed.

Lemma R_ok {A} s s' (a : A) (Q : span -> A -> Prop) : adv s s' -> Q s' a -> R s (Ok s' a) Q.
Proof. unfold R. auto. Qed.

Lemma G_bind {A B} n (p : parser A) (k : span -> A -> res B) s Q1 Q :
  G n p Q1 -> sok s -> remaining_len s < n ->
  (forall s1 a, adv s s1 -> sok s1 -> remaining_len s1 < n -> Q1 s s1 a -> R s1 (k s1 a) Q) ->
  R s (bind (p s) k) Q.
Proof.
  intros HG Hs Hn HK. eapply R_bind; [now apply HG|].
  intros s1 a Ha HQ. apply HK; eauto using adv_sok.
  pose proof (adv_rl _ _ Hs Ha). lia.
Qed.

Lemma G_pmap {A B} n (p : parser A) (f : A -> B) Q (Q' : span -> span -> B -> Prop) :
  G n p Q -> (forall s s' a, sok s -> adv s s' -> Q s s' a -> Q' s s' (f a)) ->
  G n (pmap p f) Q'.
Proof.
  intros H HQ s Hs Hn. unfold pmap. eapply G_bind; eauto.
  intros s1 a Ha Hs1 Hn1 HQ1. apply R_ok; auto using adv_refl.
Qed.

Lemma G_value {A B} n (b : B) (p : parser A) Q (Q' : span -> span -> B -> Prop) :
  G n p Q -> (forall s s' a, sok s -> adv s s' -> Q s s' a -> Q' s s' b) ->
  G n (value b p) Q'.
Proof. intros H HQ. unfold value. eapply G_pmap; eauto. Qed.

Lemma G_opt {A} n (p : parser A) Q :
  G n p Q ->
  G n (opt p) (fun s s' o => match o with
                             | Some a => Q s s' a
                             | None => s' = s /\ p s = Err end).
Proof.
  intros H s Hs Hn. specialize (H s Hs Hn). unfold opt, R in *.
  destruct (p s) eqn:E; auto. split; auto using adv_refl.
Qed.

Lemma G_peek {A} n (p : parser A) Q :
  G n p Q -> G n (peek p) (fun s s' a => s' = s /\ exists s1, adv s s1 /\ Q s s1 a).
Proof.
  intros H s Hs Hn. specialize (H s Hs Hn). unfold peek, R in *.
  destruct (p s) as [s1 a| | |]; simpl; auto. destruct H. split; auto using adv_refl.
  split; eauto.
Qed.

Lemma G_pnot {A} n (p : parser A) Q :
  G n p Q -> G n (pnot p) (fun s s' _ => s' = s /\ p s = Err).
Proof.
  intros H s Hs Hn. specialize (H s Hs Hn). unfold pnot, R in *.
  destruct (p s) eqn:E; auto. split; auto using adv_refl.
Qed.

Lemma G_verify {A} n (p : parser A) f Q :
  G n p Q -> G n (verify p f) (fun s s' a => Q s s' a /\ f a = true).
Proof.
  intros H s Hs Hn. unfold verify. eapply G_bind; eauto.
  intros s1 a Ha Hs1 Hn1 HQ1. destruct (f a) eqn:E; [|exact I].
  apply R_ok; auto using adv_refl.
Qed.

Lemma G_map_opt {A B} n (p : parser A) (f : A -> option B) Q :
  G n p Q -> G n (map_opt p f) (fun s s' b => exists a, Q s s' a /\ f a = Some b).
Proof.
  intros H s Hs Hn. unfold map_opt. eapply G_bind; eauto.
  intros s1 a Ha Hs1 Hn1 HQ1. destruct (f a) eqn:E; [|exact I].
  apply R_ok; eauto using adv_refl.
Qed.

(** [o] is a legitimate span inside [s .. s1]. *)
Definition sub (s s1 o : span) : Prop :=
  sok o /\ sp_depth o = sp_depth s /\ sp_start s <= sp_start o /\ sp_end o <= sp_start s1.

Lemma cov_sub s s1 : sok s -> adv s s1 -> sub s s1 (cov s s1).
Proof.
  intros (H1 & H2 & H3 & H4 & H5) (K1 & K2 & K3 & K4 & K5 & K6).
  repeat split; simpl; auto; lia.
Qed.

Lemma sub_rl s s1 o : sok s -> adv s s1 -> sub s s1 o -> remaining_len o <= remaining_len s.
Proof.
  intros H (K1 & K2 & K3 & K4 & K5 & K6) (L1 & L2 & L3 & L4).
  rewrite !rl_eq by auto. lia.
Qed.

Lemma G_map_parser {B} n (p : parser span) (q : parser B) Qp (Q : span -> span -> B -> Prop) :
  G n p Qp ->
  (forall s s1 o, sok s -> remaining_len s < n -> adv s s1 -> Qp s s1 o ->
     sok o /\ R o (q o) (fun o' b => Q s s1 b)) ->
  G n (map_parser p q) Q.
Proof.
  intros Hp Hq s Hs Hn. unfold map_parser. eapply G_bind; eauto.
  intros s1 o Ha Hs1 Hn1 HQ. destruct (Hq s s1 o Hs Hn Ha HQ) as [Ho HR].
  unfold R in *. destruct (q o); simpl; auto. split; [now apply adv_refl | tauto].
Qed.

Lemma G_palt {A} n (p q : parser A) Q : G n p Q -> G n q Q -> G n (palt p q) Q.
Proof.
  intros Hp Hq s Hs Hn. specialize (Hp s Hs Hn). specialize (Hq s Hs Hn).
  unfold palt, R in *. destruct (p s); auto.
Qed.

Lemma G_fail {A} n Q : G n (@fail A) Q.
Proof. intros s Hs Hn. exact I. Qed.

Lemma G_alt {A} n (ps : list (parser A)) Q : Forall (fun p => G n p Q) ps -> G n (alt ps) Q.
Proof.
  induction 1; simpl; [apply G_fail | apply G_palt; auto].
Qed.

Lemma alt_err {A} (ps : list (parser A)) s :
  alt ps s = Err -> Forall (fun p => p s = Err) ps.
Proof.
  induction ps as [|p ps IH]; simpl; intro H; constructor.
  - unfold palt in H. now destruct (p s).
  - apply IH. unfold palt in H. now destruct (p s).
Qed.

Lemma G_pair {A B} n (p : parser A) (q : parser B) Qp Qq :
  G n p Qp -> G n q Qq ->
  G n (pair p q) (fun s s' x => exists s1, adv s s1 /\ adv s1 s' /\
                                Qp s s1 (fst x) /\ Qq s1 s' (snd x)).
Proof.
  intros Hp Hq s Hs Hn. unfold pair. eapply G_bind; eauto.
  intros s1 a Ha Hs1 Hn1 HQ1. eapply G_bind; eauto.
  intros s2 b Hb Hs2 Hn2 HQ2. apply R_ok; auto using adv_refl. simpl. eauto 8.
Qed.

Lemma G_preceded {A B} n (p : parser A) (q : parser B) Qp Qq :
  G n p Qp -> G n q Qq ->
  G n (preceded p q) (fun s s' b => exists s1 a, adv s s1 /\ adv s1 s' /\ Qp s s1 a /\ Qq s1 s' b).
Proof.
  intros Hp Hq s Hs Hn. unfold preceded. eapply G_bind; eauto.
  intros s1 a Ha Hs1 Hn1 HQ1. eapply R_weaken; [apply Hq; auto|].
  intros s2 b Hb HQ2. eauto 8.
Qed.

Lemma G_terminated {A B} n (p : parser A) (q : parser B) Qp Qq :
  G n p Qp -> G n q Qq ->
  G n (terminated p q) (fun s s' a => exists s1 b, adv s s1 /\ adv s1 s' /\ Qp s s1 a /\ Qq s1 s' b).
Proof.
  intros Hp Hq s Hs Hn. unfold terminated. eapply G_bind; eauto.
  intros s1 a Ha Hs1 Hn1 HQ1. eapply G_bind; eauto.
  intros s2 b Hb Hs2 Hn2 HQ2. apply R_ok; auto using adv_refl. eauto 8.
Qed.

Lemma G_delimited {A B C} n (p : parser A) (q : parser B) (r : parser C) Qp Qq Qr :
  G n p Qp -> G n q Qq -> G n r Qr ->
  G n (delimited p q r)
    (fun s s' b => exists s1 s2 a c, adv s s1 /\ adv s1 s2 /\ adv s2 s' /\
                   Qp s s1 a /\ Qq s1 s2 b /\ Qr s2 s' c).
Proof.
  intros Hp Hq Hr. unfold delimited.
  eapply G_weaken; [eapply G_preceded; [eassumption | eapply G_terminated; eassumption]|].
  intros s s' b Hs Ha (s1 & a & H1 & H2 & H3 & s2 & c & H4 & H5 & H6 & H7).
  exists s1, s2, a, c. auto 10.
Qed.

Lemma G_separated_pair {A B C} n (p : parser A) (q : parser B) (r : parser C) Qp Qq Qr :
  G n p Qp -> G n q Qq -> G n r Qr ->
  G n (separated_pair p q r)
    (fun s s' x => exists s1 s2 b, adv s s1 /\ adv s1 s2 /\ adv s2 s' /\
                   Qp s s1 (fst x) /\ Qq s1 s2 b /\ Qr s2 s' (snd x)).
Proof.
  intros Hp Hq Hr s Hs Hn. unfold separated_pair. eapply G_bind; eauto.
  intros s1 a Ha Hs1 Hn1 HQ1. eapply G_bind; eauto.
  intros s2 b Hb Hs2 Hn2 HQ2. eapply G_bind; eauto.
  intros s3 c Hc Hs3 Hn3 HQ3. apply R_ok; auto using adv_refl.
  exists s1, s2, b. simpl. auto 10.
Qed.

Lemma G_recognize {A} n (p : parser A) Q :
  G n p Q ->
  G n (recognize p) (fun s s' o => o = cov s s' /\ exists a, Q s s' a).
Proof.
  intros H s Hs Hn. unfold recognize. eapply G_bind; eauto.
  intros s1 a Ha Hs1 Hn1 HQ1. destruct (sp_start s1 <? sp_start s) eqn:E.
  - apply Nat.ltb_lt in E. destruct Ha as (_ & _ & _ & K & _). lia.
  - apply R_ok; auto using adv_refl. split; [|eauto].
    unfold advance_end_by, cov. destruct Hs as (-> & _).
    destruct Ha as (_ & _ & _ & K & _). f_equal. lia.
Qed.

(** A sequence of strictly advancing steps. *)
Inductive steps {A} (Q : span -> span -> A -> Prop) : span -> list A -> span -> Prop :=
| steps_nil s : steps Q s [] s
| steps_cons s s1 s2 a l :
    sok s -> adv s s1 -> sp_start s < sp_start s1 -> Q s s1 a -> steps Q s1 l s2 ->
    steps Q s (a :: l) s2.

Lemma steps_adv {A} (Q : span -> span -> A -> Prop) s l s' :
  sok s -> steps Q s l s' -> adv s s'.
Proof.
  intros Hs H. induction H; [now apply adv_refl|].
  eapply adv_trans; eauto using adv_sok.
Qed.

Lemma steps_weaken {A} (Q Q' : span -> span -> A -> Prop) s l s' :
  (forall s s' a, sok s -> adv s s' -> Q s s' a -> Q' s s' a) ->
  steps Q s l s' -> steps Q' s l s'.
Proof. intros H. induction 1; econstructor; eauto. Qed.

Lemma many0_fuel_R {A} n (p : parser A) Q fuel s :
  G n p Q -> sok s -> remaining_len s < n -> remaining_len s < fuel ->
  R s (many0_fuel fuel p s) (fun s' l => steps Q s l s' /\ p s' = Err).
Proof.
  intro HG. revert s. induction fuel as [|f IH]; intros s Hs Hn Hf; [lia|].
  simpl. pose proof (HG s Hs Hn) as H. unfold R in H.
  destruct (p s) as [s1 a| | |] eqn:E; auto.
  - destruct H as [Ha HQ]. destruct (span_eqb s1 s) eqn:E1; [exact I|].
    pose proof (span_eqb_start _ _ Hs Ha E1) as Hlt.
    pose proof (adv_rl_lt _ _ Hs Ha Hlt). pose proof (adv_sok _ _ Hs Ha) as Hs1.
    assert (HR := IH s1 Hs1 ltac:(lia) ltac:(lia)).
    unfold R in *. destruct (many0_fuel f p s1) as [s2 l| | |]; simpl; auto.
    destruct HR as [Hb [Hst He]]. split; [eapply adv_trans; eauto|].
    split; auto. econstructor; eauto.
  - apply R_ok; auto using adv_refl. split; auto. constructor.
Qed.

Lemma G_many0 {A} n (p : parser A) Q :
  G n p Q -> G n (many0 p) (fun s s' l => steps Q s l s' /\ p s' = Err).
Proof. intros H s Hs Hn. unfold many0. eapply many0_fuel_R; eauto. Qed.

Lemma G_many1 {A} n (p : parser A) Q :
  G n p Q ->
  G n (many1 p) (fun s s' l => exists s1 a l', l = a :: l' /\ adv s s1 /\ adv s1 s' /\
                   Q s s1 a /\ steps Q s1 l' s' /\ p s' = Err).
Proof.
  intros H s Hs Hn. unfold many1. eapply G_bind; eauto.
  intros s1 a Ha Hs1 Hn1 HQ1. eapply G_bind; [eapply G_many0; eauto| | |]; eauto.
  intros s2 l Hb Hs2 Hn2 [Hst He]. apply R_ok; auto using adv_refl.
  exists s1, a, l. auto 10.
Qed.

(** When every success advances, [many1] is a sequence of steps. *)
Lemma G_many1_steps {A} n (p : parser A) Q :
  G n p Q -> (forall s s' a, sok s -> adv s s' -> Q s s' a -> sp_start s < sp_start s') ->
  G n (many1 p) (fun s s' l => l <> [] /\ steps Q s l s' /\ p s' = Err).
Proof.
  intros H Hlt. eapply G_weaken; [apply G_many1, H|].
  intros s s' l Hs Ha (s1 & a & l' & -> & H1 & H2 & H3 & H4 & H5).
  split; [discriminate|]. split; auto. econstructor; eauto.
Qed.

Inductive sep_steps {A B} (Qs : span -> span -> B -> Prop) (Q : span -> span -> A -> Prop)
  : span -> list A -> span -> Prop :=
| sep_nil s : sep_steps Qs Q s [] s
| sep_cons s s1 s2 s3 b a l :
    sok s -> adv s s1 -> sp_start s < sp_start s1 -> Qs s s1 b ->
    adv s1 s2 -> Q s1 s2 a -> sep_steps Qs Q s2 l s3 ->
    sep_steps Qs Q s (a :: l) s3.

Lemma sep_steps_adv {A B} Qs (Q : span -> span -> A -> Prop) s l s' :
  sok s -> @sep_steps A B Qs Q s l s' -> adv s s'.
Proof.
  intros Hs H. induction H; [now apply adv_refl|].
  assert (sok s2) by eauto using adv_sok.
  eapply adv_trans; [eassumption|]. eapply adv_trans; eauto.
Qed.

Lemma sep_loop_R {A B} n (sep : parser B) (p : parser A) Qs Q fuel s :
  G n sep Qs -> G n p Q -> sok s -> remaining_len s < n -> remaining_len s < fuel ->
  R s (sep_loop fuel sep p s) (fun s' l => sep_steps Qs Q s l s').
Proof.
  intros HS HG. revert s. induction fuel as [|f IH]; intros s Hs Hn Hf; [lia|].
  simpl. pose proof (HS s Hs Hn) as H. unfold R in H.
  destruct (sep s) as [s1 b| | |] eqn:E; auto.
  - destruct H as [Ha HQ]. destruct (span_eqb s1 s) eqn:E1; [exact I|].
    pose proof (span_eqb_start _ _ Hs Ha E1) as Hlt.
    pose proof (adv_rl_lt _ _ Hs Ha Hlt). pose proof (adv_sok _ _ Hs Ha) as Hs1.
    pose proof (HG s1 Hs1 ltac:(lia)) as H1. unfold R in H1.
    destruct (p s1) as [s2 a| | |] eqn:E2; auto.
    + destruct H1 as [Ha2 HQ2]. pose proof (adv_rl _ _ Hs1 Ha2).
      pose proof (adv_sok _ _ Hs1 Ha2) as Hs2.
      assert (HR := IH s2 Hs2 ltac:(lia) ltac:(lia)).
      unfold R in *. destruct (sep_loop f sep p s2) as [s3 l| | |]; simpl; auto.
      destruct HR as [Hb Hst]. split; [eapply adv_trans; [|eapply adv_trans]; eauto|].
      econstructor; eauto.
    + apply R_ok; auto using adv_refl. constructor.
  - apply R_ok; auto using adv_refl. constructor.
Qed.

Lemma G_separated_list1 {A B} n (sep : parser B) (p : parser A) Qs Q :
  G n sep Qs -> G n p Q ->
  G n (separated_list1 sep p)
    (fun s s' l => exists s1 a l', l = a :: l' /\ adv s s1 /\ Q s s1 a /\ adv s1 s' /\
                                   sep_steps Qs Q s1 l' s').
Proof.
  intros HS HG s Hs Hn. unfold separated_list1. eapply G_bind; eauto.
  intros s1 a Ha Hs1 Hn1 HQ1. eapply R_bind; [eapply sep_loop_R; eauto|].
  intros s2 l Hb Hst. apply R_ok; [eauto using adv_refl, adv_sok|].
  exists s1, a, l. auto 10.
Qed.

Lemma G_separated_list0 {A B} n (sep : parser B) (p : parser A) Qs Q :
  G n sep Qs -> G n p Q ->
  G n (separated_list0 sep p)
    (fun s s' l => (l = [] /\ s' = s) \/
                   exists s1 a l', l = a :: l' /\ adv s s1 /\ Q s s1 a /\ adv s1 s' /\
                                   sep_steps Qs Q s1 l' s').
Proof.
  intros HS HG s Hs Hn. unfold separated_list0.
  pose proof (HG s Hs Hn) as H. unfold R in H. destruct (p s) as [s1 a| | |]; auto.
  - destruct H as [Ha HQ].
    assert (R s1 (do (s2, l) <- sep_loop (S (remaining_len s1)) sep p s1;; Ok s2 (a :: l))
              (fun s' l => exists s1 a l', l = a :: l' /\ adv s s1 /\ Q s s1 a /\ adv s1 s' /\
                                   sep_steps Qs Q s1 l' s')).
    { pose proof (adv_rl _ _ Hs Ha). eapply R_bind.
      - eapply sep_loop_R; eauto using adv_sok. lia.
      - intros s2 l Hb Hst. apply R_ok; [eauto using adv_refl, adv_sok|].
        exists s1, a, l. auto 10. }
    unfold R in *. destruct (bind _ _); auto. destruct H. split; [eapply adv_trans; eauto|].
    right. auto.
  - apply R_ok; auto using adv_refl.
Qed.

Lemma G_deeper {A} n (p : parser A) Q :
  G n p Q -> G n (deeper p) (fun s s' a => Q (with_deeper s) (with_deeper s') a).
Proof.
  intros H s Hs Hn. unfold deeper.
  assert (Hd : sok (with_deeper s)) by (destruct Hs as (? & ? & ? & ? & ?); repeat split; auto).
  specialize (H (with_deeper s) Hd Hn). unfold R in *.
  destruct (p (with_deeper s)) as [s1 a| | |]; simpl; auto.
  destruct H as [(K1 & K2 & K3 & K4 & K5 & K6) HQ]. simpl in *.
  unfold with_deeper, with_shallower, with_depth in *. simpl.
  split.
  - repeat split; simpl; auto; lia.
  - destruct s1 as [i st e d]; simpl in *. subst d.
    replace (sp_depth s + 1 - 1) with (sp_depth s) by lia. exact HQ.
Qed.

(** Region of a located result. *)
Definition reg (s s' : span) : region :=
  Region (sp_start s) (sp_start s' - sp_start s) (sp_depth s).

Lemma G_located_p {A} n (p : parser A) Q :
  G n p Q -> G n (located_p p) (fun s s' x => l_reg x = reg s s' /\ Q s s' (l_val x)).
Proof.
  intros H s Hs Hn. specialize (H s Hs Hn). unfold located_p, locate, capture.
  unfold R in *. destruct (p s) as [s1 a| | |]; simpl; auto.
  destruct H as [Ha HQ]. destruct (sp_start s1 <? sp_start s) eqn:E; simpl.
  { apply Nat.ltb_lt in E. destruct Ha as (_ & _ & _ & K & _). lia. }
  split; auto. split; auto. unfold region_of, reg, with_length.
  rewrite (rl_eq s) by auto.
  destruct (sp_start s1 - sp_start s <? sp_end s - sp_start s) eqn:E1; simpl.
  - f_equal. unfold remaining_len. simpl. apply Nat.ltb_lt in E1.
    destruct (sp_start s <=? sp_start s + (sp_start s1 - sp_start s)) eqn:E2;
      [lia | apply Nat.leb_gt in E2; lia].
  - apply Nat.ltb_ge in E1. rewrite (rl_eq s) by auto. f_equal.
    destruct Ha as (_ & K2 & _ & K & K5 & _). lia.
Qed.

(** * Byte parsers *)

Definition ascii_str (t : str) : Prop := Forall (fun b => is_ascii b = true) t.

Lemma starts_with_nth t l k b :
  starts_with t l = true -> nth_error t k = Some b -> nth_error l k = Some b.
Proof.
  intros H K. apply starts_with_spec in H as [r ->].
  rewrite nth_error_app1; auto. apply nth_error_Some. congruence.
Qed.

Lemma starts_with_len t l : starts_with t l = true -> length t <= length l.
Proof. intro H. apply starts_with_spec in H as [r ->]. rewrite app_length. lia. Qed.

Lemma starts_with_firstn t l : starts_with t l = true -> firstn (length t) l = t.
Proof.
  intro H. apply starts_with_spec in H as [r ->].
  rewrite firstn_app, Nat.sub_diag, firstn_all. simpl. apply app_nil_r.
Qed.

Lemma bd_known_tag t l : ascii_str t -> starts_with t l = true -> bd_known l (length t).
Proof.
  intros Ha H. destruct (length t) as [|k] eqn:E; [now left|].
  right. right. right.
  destruct (nth_error t k) as [b|] eqn:Eb; [|apply nth_error_None in Eb; lia].
  exists k, b. split; auto. split; [eapply starts_with_nth; eauto|].
  eapply Forall_forall in Ha; eauto. eapply nth_error_In; eauto.
Qed.

Lemma G_tag n t :
  ascii_str t -> G n (tag t) (fun s s' o => txt s s' = t /\ o = cov s s').
Proof.
  intros Ha s Hs Hn. unfold tag. destruct (starts_with t (remaining s)) eqn:E; [|exact I].
  pose proof (starts_with_len _ _ E) as Hl. rewrite remaining_length in Hl by auto.
  assert (length t <= remaining_len s) by (rewrite rl_eq; auto).
  apply R_ok_split; auto using bd_known_tag.
  intros s' Hadv Hst. split; auto. unfold txt. rewrite Hst.
  rewrite <- firstn_remaining by auto. now apply starts_with_firstn.
Qed.

Lemma remaining_cons s b r :
  sok s -> remaining s = b :: r ->
  nth_error inner (sp_start s) = Some b /\ sp_start s < sp_end s /\
  r = slice (S (sp_start s)) (sp_end s) inner.
Proof. intros H E. rewrite remaining_eq in E by auto. apply slice_cons in E. tauto. Qed.

Lemma R_advance1 {A} s b r (a : A) (Q : span -> A -> Prop) :
  sok s -> remaining s = b :: r -> is_ascii b = true ->
  (forall s', adv s s' -> sp_start s' = S (sp_start s) -> txt s s' = [b] -> Q s' a) ->
  R s (Ok (advance_start_by 1 s) a) Q.
Proof.
  intros Hs E Hb HQ. destruct (remaining_cons _ _ _ Hs E) as (H1 & H2 & H3).
  assert (1 <= remaining_len s) by (rewrite rl_eq by auto; lia).
  rewrite advance_start_eq by auto.
  assert (Ha : adv s (Span inner (sp_start s + 1) (sp_end s) (sp_depth s))).
  { apply adv_advance; auto. replace (sp_start s + 1) with (S (sp_start s)) by lia. eauto. }
  apply R_ok; auto. apply HQ; auto; simpl; [lia|].
  unfold txt. simpl. rewrite <- firstn_remaining, E by auto. reflexivity.
Qed.

Lemma G_pchar n c :
  is_ascii c = true -> G n (pchar c) (fun s s' a => txt s s' = [c]).
Proof.
  intros Hc s Hs Hn. unfold pchar. destruct (remaining s) as [|b r] eqn:E; [exact I|].
  destruct (beqb b c) eqn:Eb; [|exact I]. apply beqb_eq in Eb. subst b.
  eapply R_advance1; eauto.
Qed.

Lemma G_one_of n cs :
  ascii_str cs -> G n (one_of cs) (fun s s' a => txt s s' = [a] /\ In a cs).
Proof.
  intros Hc s Hs Hn. unfold one_of. destruct (remaining s) as [|b r] eqn:E; [exact I|].
  destruct (existsb (beqb b) cs) eqn:Eb; [|exact I].
  apply existsb_exists in Eb as [x [Hx1 Hx2]]. apply beqb_eq in Hx2. subst x.
  eapply R_advance1; eauto. eapply Forall_forall in Hc; eauto.
Qed.

Lemma bd_known_while p l :
  (forall b, p b = true -> is_ascii b = true) -> bd_known l (count_while p l).
Proof.
  intro Hp. destruct (count_while p l) as [|k] eqn:E; [now left|].
  right. right. right. destruct (count_while_nth p l k) as [b [H1 H2]]; [lia|].
  exists k, b. auto.
Qed.

Lemma bd_known_until p l :
  (forall b, p b = false -> is_ascii b = true) -> bd_known l (count_while p l).
Proof.
  intro Hp. destruct (nth_error l (count_while p l)) as [b|] eqn:E.
  - right. right. left. exists b. split; auto. apply Hp. eapply count_while_stop; eauto.
  - apply nth_error_None in E. pose proof (count_while_le p l). right. left. lia.
Qed.

(** Next byte at [s'] within the same end. *)
Definition next (s : span) : option byte := nth_error (remaining s) 0.

Lemma remaining_adv s s' k :
  sok s -> adv s s' -> sp_start s' = sp_start s + k -> remaining s' = skipn k (remaining s).
Proof.
  intros Hs Ha Hk. rewrite (remaining_eq s') by eauto using adv_sok.
  rewrite (remaining_eq s) by auto. rewrite skipn_slice. rewrite Hk.
  destruct Ha as (_ & -> & _). reflexivity.
Qed.

Lemma R_while p s (Q : span -> span -> Prop) :
  sok s -> bd_known (remaining s) (count_while p (remaining s)) ->
  (forall s', adv s s' -> sp_start s' = sp_start s + count_while p (remaining s) ->
     Forall (fun b => p b = true) (txt s s') ->
     (forall b, next s' = Some b -> p b = false) -> Q s' (cov s s')) ->
  R s (ok_split (count_while p (remaining s)) s) Q.
Proof.
  intros Hs Hb HQ.
  assert (Hl : count_while p (remaining s) <= remaining_len s).
  { rewrite rl_eq, <- remaining_length by auto. apply count_while_le. }
  apply R_ok_split; auto. intros s' Ha Hst. apply HQ; auto.
  - unfold txt. rewrite Hst, <- firstn_remaining by auto. apply count_while_forall.
  - intros b Hn. unfold next in Hn. erewrite remaining_adv in Hn by eauto.
    rewrite nth_error_skipn, Nat.add_0_r in Hn. eapply count_while_stop; eauto.
Qed.

Lemma is_space_ascii b : is_space b = true -> is_ascii b = true.
Proof. destruct b; intro H; try discriminate H; reflexivity. Qed.
Lemma is_ascii_ws_ascii b : is_ascii_ws b = true -> is_ascii b = true.
Proof. destruct b; intro H; try discriminate H; reflexivity. Qed.
Lemma is_space_ws b : is_space b = true -> is_ascii_ws b = true.
Proof. destruct b; intro H; try discriminate H; reflexivity. Qed.
Lemma is_digit_ascii b : is_digit b = true -> is_ascii b = true.
Proof. destruct b; intro H; try discriminate H; reflexivity. Qed.
Lemma is_lower_ascii b : is_lower b = true -> is_ascii b = true.
Proof. destruct b; intro H; try discriminate H; reflexivity. Qed.
Lemma is_upper_ascii b : is_upper b = true -> is_ascii b = true.
Proof. destruct b; intro H; try discriminate H; reflexivity. Qed.

Lemma G_take_while0 n p :
  (forall b, p b = true -> is_ascii b = true) ->
  G n (take_while0 p) (fun s s' o =>
     o = cov s s' /\ Forall (fun b => p b = true) (txt s s') /\
     (forall b, next s' = Some b -> p b = false) /\
     sp_start s' = sp_start s + count_while p (remaining s)).
Proof.
  intros Hp s Hs Hn. unfold take_while0. apply R_while; auto using bd_known_while.
Qed.

Lemma G_take_while1 n p :
  (forall b, p b = true -> is_ascii b = true) ->
  G n (take_while1 p) (fun s s' o =>
     o = cov s s' /\ Forall (fun b => p b = true) (txt s s') /\
     (forall b, next s' = Some b -> p b = false) /\ sp_start s < sp_start s').
Proof.
  intros Hp s Hs Hn. unfold take_while1.
  destruct (count_while p (remaining s) =? 0) eqn:E; [exact I|].
  apply Nat.eqb_neq in E. apply R_while; auto using bd_known_while.
  intros s' Ha Hst H1 H2. repeat split; auto. lia.
Qed.

Lemma G_space0 n :
  G n space0 (fun s s' o => o = cov s s' /\ blanks (txt s s') /\
     (forall b, next s' = Some b -> is_space b = false) /\
     sp_start s' = sp_start s + count_while is_space (remaining s)).
Proof. apply G_take_while0, is_space_ascii. Qed.
Lemma G_space1 n :
  G n space1 (fun s s' o => o = cov s s' /\ blanks (txt s s') /\
     (forall b, next s' = Some b -> is_space b = false) /\ sp_start s < sp_start s').
Proof. apply G_take_while1, is_space_ascii. Qed.
Lemma G_digit1 n :
  G n digit1 (fun s s' o => o = cov s s' /\ Forall (fun b => is_digit b = true) (txt s s') /\
     (forall b, next s' = Some b -> is_digit b = false) /\ sp_start s < sp_start s').
Proof. apply G_take_while1, is_digit_ascii. Qed.

Lemma G_rest n : G n rest (fun s s' o => o = s /\ sp_start s' = sp_end s).
Proof.
  intros s Hs Hn. unfold rest. rewrite advance_start_eq by auto.
  assert (E : sp_start s + remaining_len s = sp_end s).
  { rewrite rl_eq by auto. destruct Hs as (_ & ? & _). lia. }
  apply R_ok.
  - apply adv_advance; auto. rewrite E. apply Hs.
  - simpl. auto.
Qed.

Lemma G_rest_len n : G n rest_len (fun s s' k => s' = s /\ k = remaining_len s).
Proof. intros s Hs Hn. apply R_ok; auto using adv_refl. Qed.

Lemma G_count_remaining_bytes n :
  G n count_remaining_bytes (fun s s' k => s' = s /\ k = remaining_len s).
Proof. intros s Hs Hn. apply R_ok; auto using adv_refl. Qed.

Lemma G_cow_str n : G n cow_str (fun s s' t => s' = s /\ t = remaining s).
Proof. intros s Hs Hn. apply R_ok; auto using adv_refl. Qed.

Lemma ascii_nl : ascii_str nl_str. Proof. repeat constructor. Qed.
Lemma ascii_crlf : ascii_str crlf_str. Proof. repeat constructor. Qed.

Lemma G_line_ending n :
  G n line_ending (fun s s' o => txt s s' = [b_nl] \/ txt s s' = [b_cr; b_nl]).
Proof.
  unfold line_ending. apply G_palt.
  - eapply G_weaken; [apply G_tag, ascii_nl|]. simpl. tauto.
  - eapply G_weaken; [apply G_tag, ascii_crlf|]. simpl. tauto.
Qed.

(** What [end_of_line_or_input] consumed. *)
Lemma G_end_of_line_or_input n :
  G n end_of_line_or_input (fun s s' _ =>
     (s' = s /\ sp_start s = sp_end s) \/ txt s s' = [b_nl] \/ txt s s' = [b_cr; b_nl]).
Proof.
  intros s Hs Hn. unfold end_of_line_or_input, sp_is_empty.
  destruct (remaining_len s =? 0) eqn:E.
  - apply Nat.eqb_eq in E. rewrite rl_eq in E by auto. apply R_ok; auto using adv_refl.
    left. split; auto. destruct Hs as (_ & ? & _). lia.
  - eapply G_bind; [apply (G_line_ending n)| | |]; auto.
    intros s1 o Ha Hs1 Hn1 HQ. apply R_ok; auto using adv_refl.
Qed.

Lemma eoli_eol_str s s' :
  (s' = s /\ sp_start s = sp_end s) \/ txt s s' = [b_nl] \/ txt s s' = [b_cr; b_nl] ->
  eol_str (txt s s').
Proof.
  intros [[-> _]|[H|H]]; unfold eol_str; auto. left. now apply txt_same.
Qed.

Lemma bd_known_line_stop pats l k :
  Forall (fun pat => pat <> [] /\ is_ascii (pat0 pat) = true) pats ->
  line_stop pats l k -> bd_known l k.
Proof.
  intros Hp (H1 & H2 & H3 & [->|[[H|[H _]]|[pat [Hi Ho]]]]).
  - right. now left.
  - right. right. left. exists b_nl. auto.
  - right. right. left. exists b_cr. auto.
  - right. right. left. exists (pat0 pat).
    rewrite Forall_forall in Hp. destruct (Hp pat Hi). split; auto using occ_pat0.
Qed.

(** A "take until" parser whose stopping position satisfies [line_stop]. *)
Lemma G_line_stop n (pos : str -> nat) pats :
  (forall l, line_stop pats l (pos l)) ->
  Forall (fun pat => pat <> [] /\ is_ascii (pat0 pat) = true) pats ->
  G n (fun s => ok_split (pos (remaining s)) s)
    (fun s s' o => o = cov s s' /\ no_nl (txt s s') /\
       line_stop pats (remaining s) (sp_start s' - sp_start s)).
Proof.
  intros Hpos Hp s Hs Hn. pose proof (Hpos (remaining s)) as H.
  assert (Hl : pos (remaining s) <= remaining_len s).
  { rewrite rl_eq, <- remaining_length by auto. apply H. }
  apply R_ok_split; eauto using bd_known_line_stop.
  intros s' Ha Hst. split; auto. split.
  - unfold txt. rewrite Hst, <- firstn_remaining by auto. apply H.
  - rewrite Hst. now replace (sp_start s + pos (remaining s) - sp_start s)
      with (pos (remaining s)) by lia.
Qed.

Lemma G_take_line_until n pat :
  pat <> [] -> length pat <= 2 -> is_ascii (pat0 pat) = true ->
  G n (take_line_until pat)
    (fun s s' o => o = cov s s' /\ no_nl (txt s s') /\
       line_stop [pat] (remaining s) (sp_start s' - sp_start s)).
Proof.
  intros H1 H2 H3. unfold take_line_until.
  apply (G_line_stop n (tlu_pos pat)); [intro l; now apply tlu_pos_spec | auto].
Qed.

Lemma non_empty_cov s s' :
  sok s -> adv s s' -> non_empty (cov s s') = true -> sp_start s < sp_start s'.
Proof.
  intros Hs Ha. unfold non_empty, sp_is_empty.
  rewrite rl_eq by (apply (cov_sub _ _ Hs Ha)). simpl.
  intro H. apply negb_true_iff, Nat.eqb_neq in H. lia.
Qed.

Lemma G_non_empty {n} (p : parser span) (Q : span -> span -> Prop) :
  G n p (fun s s' o => o = cov s s' /\ Q s s') ->
  G n (verify p non_empty) (fun s s' o => o = cov s s' /\ Q s s' /\ sp_start s < sp_start s').
Proof.
  intro H. eapply G_weaken; [apply G_verify, H|].
  intros s s' o Hs Ha [[-> HQ] He]. auto using non_empty_cov.
Qed.

Lemma G_take_line_until1 n pat :
  pat <> [] -> length pat <= 2 -> is_ascii (pat0 pat) = true ->
  G n (take_line_until1 pat)
    (fun s s' o => o = cov s s' /\ (no_nl (txt s s') /\
       line_stop [pat] (remaining s) (sp_start s' - sp_start s)) /\ sp_start s < sp_start s').
Proof.
  intros H1 H2 H3. apply (G_non_empty _ (fun s s' => no_nl (txt s s') /\
       line_stop [pat] (remaining s) (sp_start s' - sp_start s))).
  now apply G_take_line_until.
Qed.

Lemma G_take_line_until_two1 n p1 p2 :
  p1 <> [] -> p2 <> [] -> is_ascii (pat0 p1) = true -> is_ascii (pat0 p2) = true ->
  G n (take_line_until_one_of_two1 p1 p2)
    (fun s s' o => o = cov s s' /\ (no_nl (txt s s') /\
       line_stop [p1; p2] (remaining s) (sp_start s' - sp_start s)) /\ sp_start s < sp_start s').
Proof.
  intros H1 H2 H3 H4. apply (G_non_empty _ (fun s s' => no_nl (txt s s') /\
       line_stop [p1; p2] (remaining s) (sp_start s' - sp_start s))).
  unfold take_line_until_one_of_two.
  apply (G_line_stop n (tlu2_pos p1 p2)); [intro l; now apply tlu2_pos_spec | auto].
Qed.

Lemma G_take_line_until_three1 n p1 p2 p3 :
  p1 <> [] -> p2 <> [] -> p3 <> [] ->
  is_ascii (pat0 p1) = true -> is_ascii (pat0 p2) = true -> is_ascii (pat0 p3) = true ->
  G n (take_line_until_one_of_three1 p1 p2 p3)
    (fun s s' o => o = cov s s' /\ (no_nl (txt s s') /\
       line_stop [p1; p2; p3] (remaining s) (sp_start s' - sp_start s)) /\ sp_start s < sp_start s').
Proof.
  intros H1 H2 H3 H4 H5 H6. apply (G_non_empty _ (fun s s' => no_nl (txt s s') /\
       line_stop [p1; p2; p3] (remaining s) (sp_start s' - sp_start s))).
  unfold take_line_until_one_of_three.
  apply (G_line_stop n (tlu3_pos p1 p2 p3)); [intro l; now apply tlu3_pos_spec | auto].
Qed.

Lemma tueoli_eq s :
  take_until_end_of_line_or_input s =
  match find_pos is_nl (remaining s) with
  | Some pos => ok_split (eol_pos (remaining s) pos) s
  | None => rest s
  end.
Proof. reflexivity. Qed.

Lemma G_take_until_eol n :
  G n take_until_end_of_line_or_input
    (fun s s' o => o = cov s s' /\ no_nl (txt s s') /\
       line_stop [] (remaining s) (sp_start s' - sp_start s)).
Proof.
  intros s Hs Hn. rewrite tueoli_eq.
  pose proof (G_line_stop n eol_stop [] eol_stop_spec (Forall_nil _) s Hs Hn) as H.
  cbv beta in H. unfold eol_stop in H at 1.
  destruct (find_pos is_nl (remaining s)) as [pos|] eqn:E; [exact H|].
  unfold rest. unfold ok_split in H.
  assert (E1 : length (remaining s) = remaining_len s) by (rewrite rl_eq, remaining_length; auto).
  rewrite E1 in H.
  enough (advance_end_by (remaining_len s) s = s) as E2 by (rewrite E2 in H; exact H).
  unfold advance_end_by. rewrite rl_eq by auto. destruct s; simpl in *.
  destruct Hs as (_ & ? & _). simpl in *. f_equal. lia.
Qed.

Lemma G_take_until n pat :
  pat <> [] -> is_ascii (pat0 pat) = true ->
  G n (take_until pat)
    (fun s s' o => o = cov s s' /\ occ pat (remaining s) (sp_start s' - sp_start s) /\
       forall j, j < sp_start s' - sp_start s -> ~ occ pat (remaining s) j).
Proof.
  intros H1 H2 s Hs Hn. unfold take_until. pose proof (offset_of_spec pat (remaining s) H1) as H.
  destruct (offset_of pat (remaining s)) as [k|]; [|exact I]. destruct H as [Ho Hb].
  assert (Hl : k <= remaining_len s).
  { rewrite rl_eq, <- remaining_length by auto. apply occ_iff in Ho as [_ Ho]. specialize (Ho H1). lia. }
  apply R_ok_split; auto.
  - right. right. left. exists (pat0 pat). split; auto using occ_pat0.
  - intros s' Ha Hst. rewrite Hst. replace (sp_start s + k - sp_start s) with k by lia. auto.
Qed.

Lemma rev_head {A} (l r : list A) c :
  rev l = c :: r -> nth_error l (length l - 1) = Some c /\ 0 < length l.
Proof.
  intro H. assert (l = rev r ++ [c]).
  { rewrite <- (rev_involutive l), H. reflexivity. }
  subst l. rewrite app_length. simpl. split; [|lia].
  rewrite nth_error_app2 by lia. now replace (length (rev r) + 1 - 1 - length (rev r)) with 0 by lia.
Qed.

Lemma consumed_length s : sok s -> length (consumed s) = sp_start s.
Proof.
  intros (H1 & H2 & H3 & _). unfold consumed. rewrite H1, firstn_length. lia.
Qed.

Lemma beginning_of_line_spec s :
  sok s -> (beginning_of_line s = Ok s tt /\ bol inner (sp_start s)) \/
           (beginning_of_line s = Err /\ ~ bol inner (sp_start s)).
Proof.
  intro Hs. unfold beginning_of_line. pose proof (consumed_length s Hs) as Hl.
  destruct (rev (consumed s)) as [|c r] eqn:E.
  - left. split; auto. left. apply (f_equal (@length _)) in E. rewrite rev_length in E.
    simpl in E. lia.
  - apply rev_head in E as [E1 E2]. rewrite Hl in *.
    unfold consumed in E1. destruct Hs as (H1 & _). rewrite H1 in E1.
    rewrite nth_error_firstn in E1 by lia.
    destruct (is_nl c) eqn:Ec.
    + left. split; auto. right. apply beqb_eq in Ec. congruence.
    + right. split; auto. intros [H|H]; [lia|]. apply beqb_neq in Ec. congruence.
Qed.

Lemma G_beginning_of_line n :
  G n beginning_of_line (fun s s' _ => s' = s /\ bol inner (sp_start s)).
Proof.
  intros s Hs Hn. destruct (beginning_of_line_spec s Hs) as [[-> H]|[-> _]]; [|exact I].
  apply R_ok; auto using adv_refl.
Qed.

Lemma G_rest_of_line n :
  G n rest_of_line (fun s s' o => exists s1, adv s s1 /\ adv s1 s' /\ o = cov s s1 /\
     no_nl (txt s s1) /\ eol_str (txt s1 s') /\
     ((s' = s1 /\ sp_start s1 = sp_end s) \/ txt s1 s' = [b_nl] \/ txt s1 s' = [b_cr; b_nl])).
Proof.
  intros s Hs Hn. unfold rest_of_line. eapply G_bind; [apply (G_take_until_eol n)| | |]; auto.
  intros s1 o Ha Hs1 Hn1 (-> & H1 & H2).
  eapply G_bind; [apply (G_end_of_line_or_input n)| | |]; auto.
  intros s2 u Hb Hs2 Hn2 HQ. apply R_ok; auto using adv_refl.
  cbv beta in HQ. exists s1. do 4 (split; auto). split.
  - now apply eoli_eol_str.
  - destruct HQ as [[-> E]|HQ]; auto. left. split; auto.
    destruct Ha as (_ & E2 & _). congruence.
Qed.

Lemma G_any_line n :
  G n any_line (fun s s' o => bol inner (sp_start s) /\ exists s1, adv s s1 /\ adv s1 s' /\ o = cov s s1 /\
     no_nl (txt s s1) /\ eol_str (txt s1 s') /\
     ((s' = s1 /\ sp_start s1 = sp_end s) \/ txt s1 s' = [b_nl] \/ txt s1 s' = [b_cr; b_nl])).
Proof.
  intros s Hs Hn. unfold any_line. eapply G_bind; [apply (G_beginning_of_line n)| | |]; auto.
  intros s1 u Ha Hs1 Hn1 [-> Hbol]. eapply G_bind; [apply (G_rest_of_line n)| | |]; auto.
  intros s2 o Hb Hs2 Hn2 H. apply R_ok; auto using adv_refl.
Qed.

Lemma G_blank_line n :
  G n blank_line (fun s s' o => bol inner (sp_start s) /\ sp_start s < sp_start s' /\
     exists a e, txt s s' = a ++ e /\ blanks a /\ eol_str e /\
       (e = [] -> sp_start s' = sp_end s')).
Proof.
  unfold blank_line. eapply G_weaken.
  - eapply G_preceded; [apply G_beginning_of_line|]. apply (G_palt _ _ _ (fun s s' _ =>
      sp_start s < sp_start s' /\
      exists a e, txt s s' = a ++ e /\ blanks a /\ eol_str e /\ (e = [] -> sp_start s' = sp_end s'))).
    + eapply G_weaken; [eapply G_terminated; [apply G_space1 | apply G_end_of_line_or_input]|].
      intros s s' o Hs Ha (s1 & u & H1 & H2 & (-> & H3 & H4 & H5) & H6). split.
      * destruct H2 as (_ & _ & _ & ? & _). lia.
      * rewrite (txt_app _ _ _ H1 H2). exists (txt s s1), (txt s1 s'). split; auto.
        split; auto. split; [now apply eoli_eol_str|]. intro He.
        destruct H6 as [[-> H6]|[H6|H6]]; auto; rewrite He in H6; discriminate.
    + eapply G_weaken; [eapply G_terminated; [apply G_space0 | apply G_line_ending]|].
      intros s s' o Hs Ha (s1 & u & H1 & H2 & (-> & H3 & H4) & H6).
      pose proof (txt_length _ _ (adv_sok _ _ Hs H1) H2) as HL. split.
      * destruct H1 as (_ & _ & _ & ? & _). destruct H6 as [E|E]; rewrite E in HL; simpl in HL; lia.
      * rewrite (txt_app _ _ _ H1 H2). exists (txt s s1), (txt s1 s'). split; auto.
        split; auto. split; [unfold eol_str; tauto|].
        intro He. rewrite He in H6. destruct H6; discriminate.
  - intros s s' o Hs Ha (s1 & u & H1 & H2 & [-> H3] & H4). auto.
Qed.

End Contract.

Arguments R {EV A} s r Q : simpl never.
Arguments sok {EV} s : simpl never.
Arguments adv {EV} s s' : simpl never.
