(** Properties of links given from JavaScript (C103). *)
From Verif Require Import Base ModelSpan ModelComb ModelAst ModelTable ModelLink ModelElem ModelWasm ModelOracle ModelProps
  SpecTree SpecEq SpecProps ProofProps.

(** * C103 *)

(** The claim: a link made with an object of properties has each of them under
    its name.  It is false: two names that differ in lone surrogates become the
    same. *)
Theorem C103_given_refuted : exists uri desc entries l n v, NoDup (map fst entries) /\
  js_transclusion rfc_uri_parse uri desc entries = Some l /\ In (n, JStr v) entries /\ js_get_property l n <> Some (to_rust v).
Proof.
  exists (bs "a"), (bs "b"), [([Lone 0], JStr [JC (bs "x")]); ([Lone 1], JStr [JC (bs "y")])]. eexists. exists [Lone 0], [JC (bs "x")].
  split; [repeat constructor; cbn; intuition discriminate|]. split; [vm_compute; reflexivity|]. split; [now left|vm_compute; discriminate].
Qed.
Print Assumptions C103_given_refuted.
(** It holds when the names are whole: the properties of the link are those
    given with a string, and no others. *)
Theorem C103_given_partial up uri desc entries l : NoDup (map fst entries) -> (forall n v, In (n, JStr v) entries -> whole n) ->
  js_transclusion up uri desc entries = Some l ->
  (forall n x, whole n -> (js_get_property l n = Some x <-> exists v, In (n, JStr v) entries /\ x = to_rust v)) /\
  exists ps, js_properties l = Some ps /\ NoDup (map fst ps) /\
    forall k x, In (k, x) ps <-> exists n v, In (n, JStr v) entries /\ k = to_rust n /\ x = to_rust v.
Proof.
  intros D W. unfold js_transclusion. destruct (up uri) as [u|]; [|discriminate]. intros [= <-].
  unfold js_get_property, js_properties. cbn [link_get_data ld_props]. split.
  - intros n x N. rewrite (get_in _ _ _ (props_keyed entries)), (props_same entries D W), strings_in. split.
    + intros (m & v & I & E & X). apply rust_inj in E; [|exact N|exact (W m v I)]. subst m. eauto.
    + intros (v & I & X). eauto 6.
  - exists (js_props entries). split; [reflexivity|]. split; [exact (props_keyed entries)|]. intros k x.
    rewrite (props_same entries D W). apply strings_in.
Qed.
Print Assumptions C103_given_partial.
Definition some_props : list (jstr * jsval) :=
  [([JC (bs "k")], JStr [JC [xc3; xa9]]); ([JC [xc3; xa9]], JStr [Lone 0]); ([Lone 1], JOther)].
Example C103_given_case : NoDup (map fst some_props) /\ (forall n v, In (n, JStr v) some_props -> whole n) /\
  exists l, js_transclusion rfc_uri_parse (bs "a") (bs "b") some_props = Some l /\
    js_get_property l [JC (bs "k")] = Some [xc3; xa9] /\ js_get_property l [JC (bs "z")] = None /\
    js_properties l = Some [(bs "k", [xc3; xa9]); ([xc3; xa9], [xef; xbf; xbd])].
Proof.
  assert (A : whole [JC (bs "k")]) by (repeat constructor; exists (bs "k"); split; [reflexivity|apply U1; split; vm_compute; lia]).
  assert (B : whole [JC [xc3; xa9]]) by (repeat constructor; exists [xc3; xa9]; split; [reflexivity|apply U2; split; vm_compute; lia]).
  split; [repeat constructor; cbn; intuition discriminate|]. split.
  - intros n v [H|[H|[H|[]]]]; try discriminate; injection H as <- _; auto.
  - eexists. split; [vm_compute; reflexivity|]. repeat split; vm_compute; reflexivity.
Qed.

(** A string without lone surrogates comes back as it was given. *)
Theorem C103_strings v w : whole v -> whole w -> to_rust v = to_rust w -> v = w.
Proof. exact (rust_inj v w). Qed.
Print Assumptions C103_strings.
Example C103_strings_case : whole [JC [xef; xbf; xbd]] /\ to_rust [JC [xef; xbf; xbd]] = to_rust [Lone 0] /\ [JC [xef; xbf; xbd]] <> [Lone 0].
Proof.
  split; [repeat constructor; exists [xef; xbf; xbd]; split; [reflexivity|apply U3d; split; vm_compute; lia]|].
  split; [reflexivity|discriminate].
Qed.

(** Asking for one property and listing all agree, for every link whose
    properties are a map (C36). *)
Theorem C103_agree l n x : (forall ps, js_properties l = Some ps -> NoDup (map fst ps)) ->
  (js_get_property l n = Some x <-> exists ps, js_properties l = Some ps /\ In (to_rust n, x) ps).
Proof.
  unfold js_get_property, js_properties. intro K. destruct (ld_props (link_get_data l)) as [ps|].
  - rewrite (get_in _ _ _ (K ps eq_refl)). split; [intro I; eauto|]. intros (qs & [= <-] & I). exact I.
  - split; [discriminate|]. intros (qs & E & _). discriminate.
Qed.
Print Assumptions C103_agree.
Example C103_agree_case : exists l, js_transclusion rfc_uri_parse (bs "a") (bs "b") some_props = Some l /\
  (forall ps, js_properties l = Some ps -> NoDup (map fst ps)) /\ js_get_property l [JC [xc3; xa9]] = Some [xef; xbf; xbd].
Proof.
  eexists. split; [vm_compute; reflexivity|]. split; [|vm_compute; reflexivity].
  intros ps [= <-]. repeat constructor; cbn; intuition discriminate.
Qed.
