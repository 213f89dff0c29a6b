(** Properties of a link given from JavaScript. *)
From Verif Require Import Base ModelSpan ModelComb ModelAst ModelTable ModelLink ModelElem ModelWasm ModelErr ModelProps
  SpecTree SpecEq SpecProps ProofBase ProofErr ProofJson2 ProofYield.

Lemma chars_inj cs : Forall utf8_char cs -> forall ds, Forall utf8_char ds -> concat cs = concat ds -> cs = ds.
Proof.
  induction 1 as [|c cs C F IH]; intros ds D E.
  - destruct D as [|d ds D _]; [reflexivity|]. destruct (char_some d D) as (b & r & -> & _). discriminate.
  - destruct D as [|d ds D G].
    { destruct (char_some c C) as (b & r & -> & _). discriminate. }
    assert (X : c = d).
    { pose proof (f_equal (take_chars 1) E) as T. rewrite !take_chars_char in T by (constructor; auto).
      cbn [firstn concat] in T. now rewrite !app_nil_r in T. }
    subst d. cbn [concat] in E. apply app_inv_head in E. f_equal. now apply IH.
Qed.
Lemma whole_chars w : whole w -> exists cs, w = map JC cs /\ Forall utf8_char cs /\ to_rust w = concat cs.
Proof.
  induction 1 as [|j w (c & -> & C) _ (cs & -> & F & E)]; [exists []; repeat split; constructor|].
  exists (c :: cs). split; [reflexivity|]. split; [now constructor|]. cbn [to_rust flat_map concat]. f_equal. exact E.
Qed.
Lemma rust_inj v w : whole v -> whole w -> to_rust v = to_rust w -> v = w.
Proof.
  intros V W. destruct (whole_chars v V) as (cs & -> & C & ->), (whole_chars w W) as (ds & -> & D & ->). intro E.
  now rewrite (chars_inj cs C ds D E).
Qed.

Lemma get_in k x m : keyed m -> (map_get k m = Some x <-> In (k, x) m).
Proof.
  unfold keyed. induction m as [|[k' v] m IH]; intro D; cbn [map_get In]; [split; [discriminate|intros []]|].
  cbn [map fst] in D. inversion D as [|? ? D1 D2]; subst. destruct (str_eqb k k') eqn:Q.
  - apply str_eqb_eq in Q. subst k'. split; [intros [= ->]; now left|]. intros [H|H]; [congruence|]. destruct D1. now apply (in_map fst) in H.
  - rewrite (IH D2). apply str_eqb_neq in Q. split; [now right|]. intros [H|H]; [congruence|exact H].
Qed.

Definition strings (entries : list (jstr * jsval)) : list (str * str) :=
  flat_map (fun e => match snd e with JStr w => [(to_rust (fst e), to_rust w)] | JOther => [] end) entries.
Lemma strings_in entries k x : In (k, x) (strings entries) <-> exists n v, In (n, JStr v) entries /\ k = to_rust n /\ x = to_rust v.
Proof.
  unfold strings. rewrite in_flat_map. split.
  - intros ([n [w|]] & I & H); [|destruct H]. destruct H as [[= <- <-]|[]]. eauto.
  - intros (n & v & I & -> & ->). exists (n, JStr v). split; [exact I|now left].
Qed.
Lemma strings_keyed entries : NoDup (map fst entries) -> (forall n v, In (n, JStr v) entries -> whole n) -> keyed (strings entries).
Proof.
  unfold keyed. induction entries as [|[n [v|]] entries IH]; intros D W; [constructor| |]; cbn [map fst] in D; inversion D as [|? ? D1 D2]; subst.
  - cbn [strings flat_map snd fst app map]. constructor; [|apply IH; [exact D2|intros m u I; apply (W m u); now right]].
    intro I. apply in_map_iff in I as ([k x] & E & I). cbn [fst] in E. subst k. apply strings_in in I as (m & u & I & E & _).
    apply rust_inj in E; [|apply (W n v); now left|apply (W m u); now right]. subst m. apply D1. now apply (in_map fst) in I.
  - cbn [strings flat_map snd app]. apply IH; [exact D2|intros m u I; apply (W m u); now right].
Qed.
Lemma props_same entries : NoDup (map fst entries) -> (forall n v, In (n, JStr v) entries -> whole n) -> js_props entries = strings entries.
Proof. intros D W. unfold js_props. fold (strings entries). apply collect_same. now apply strings_keyed. Qed.
Lemma props_keyed entries : keyed (js_props entries).
Proof. apply collect_ok. Qed.
