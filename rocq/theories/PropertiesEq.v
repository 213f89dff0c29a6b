(** Equality, strict equality and hashing of elements: C35. *)
From Verif Require Import Base ModelSpan ModelComb ModelAst ModelTable ModelLink ModelInline ModelBlock
  ModelOracle ModelElem ModelEq SpecEq SpecDoc ProofEq ProofEq2 ProofEq3 ProofEq4 SampleDoc.

(** [uri_eqb], [uri_hash]: equality and hashing of the external crate
    uriparse.  [ok_page] says that the lists that stand for hash maps are maps
    and that tables have the counts computed by [Table::new]; both are
    invariants of the Rust types. *)

(** Two pages are equal exactly when their contents without regions are. *)
Theorem C35_equal uri_eqb cu a b :
  describes uri_eqb cu -> ok_page a -> ok_page b ->
  page_eqb uri_eqb a b = true <-> content_of cu a = content_of cu b.
Proof. intros D A B. exact (page_iff uri_eqb cu D a b A B). Qed.
Print Assumptions C35_equal.
(** Two pages are strictly equal exactly when their contents with regions are. *)
Theorem C35_strict uri_eqb cu a b :
  describes uri_eqb cu -> ok_page a -> ok_page b ->
  page_strict uri_eqb a b = true <-> located_content_of cu a = located_content_of cu b.
Proof. intros D A B. exact (page_strict_iff uri_eqb cu D a b A B). Qed.
Print Assumptions C35_strict.

(** Full statement: strict equality implies equality.  Proved when equal URIs
    are displayed alike, and for pages without links in definition lists.
    Missing: URIs that are equal but displayed differently, in definition
    lists, which compare by displayed text; see [C35_strict_refuted]. *)
Theorem C35_strict_implies_partial uri_eqb a b :
  ok_page a -> ok_page b ->
  (forall u v, uri_eqb u v = true -> uri_display u = uri_display v) \/ page_values linkless a ->
  page_strict uri_eqb a b = true -> page_eqb uri_eqb a b = true.
Proof.
  intros A B [H|H].
  - apply (page_strict_eq uri_eqb (fun _ => True)); auto; [intros x y _; now apply cont_shown|].
    clear. induction a as [|x a IH]; split; auto. clear IH. revert x. intros [b r]. cbn [l_val]. clear.
    apply (ProofTree.block_ind' (values (fun _ => True)) (item_values (fun _ => True))); clear.
    + intros b N. destruct b; cbn; auto; [|now destruct (N _ eq_refl)].
      apply all_in. intros x _. split; auto. now apply all_in.
    + intros items F. cbn. apply all_in. now apply Forall_forall.
    + intros ty suf pos cs todo F. cbn. apply all_in. now apply Forall_forall.
  - apply (page_strict_eq uri_eqb linkless); auto. apply linkless_shown.
Qed.
Print Assumptions C35_strict_implies_partial.

Definition page_of (s : str) : page :=
  match parse_page rfc_uri_parse ymd_parse s with Ok _ p => p | _ => [] end.
(** With an equality of URIs that ignores the case of percent-encodings (RFC
    3986, 6.2.2.1), two definition lists are strictly equal but not equal. *)
Theorem C35_strict_refuted :
  exists uri_eqb cu s t,
    describes uri_eqb cu /\ ok_page (page_of s) /\ ok_page (page_of t) /\
    page_strict uri_eqb (page_of s) (page_of t) = true /\ page_eqb uri_eqb (page_of s) (page_of t) = false.
Proof.
  exists loose_eqb, loose, (ln "[[%7a]]:: x"), (ln "[[%7A]]:: x"). split; [apply loose_describes|].
  split; [vm_compute; tauto|]. split; [vm_compute; tauto|]. split; vm_compute; reflexivity.
Qed.
Print Assumptions C35_strict_refuted.

(** Equal inline text, headers, cells and definition values hash alike. *)
Theorem C35_hash uri_eqb uri_hash :
  (forall u v, uri_eqb u v = true -> uri_hash u = uri_hash v) ->
  (forall a b, ok_cont a -> ok_cont b -> container_eqb uri_eqb a b = true -> container_hash uri_hash a = container_hash uri_hash b) /\
  (forall a b, ok_cont (h_content a) -> ok_cont (h_content b) -> header_eqb uri_eqb a b = true -> header_hash uri_hash a = header_hash uri_hash b) /\
  (forall a b, ok_cell a -> ok_cell b -> cell_eqb uri_eqb a b = true -> cell_hash uri_hash a = cell_hash uri_hash b) /\
  (forall a b, def_value_eqb a b = true -> def_value_hash a = def_value_hash b) /\
  (forall a b, placeholder_eqb a b = true -> placeholder_hash a = placeholder_hash b) /\
  (forall a b, math_eqb a b = true -> math_hash a = math_hash b).
Proof.
  intro H. split; [|split; [|split; [|split; [|split]]]]; intros a b.
  - now apply cont_hash_eq.
  - now apply header_hash_eq.
  - now apply cell_hash_eq.
  - intro E. apply str_eqb_eq in E. unfold def_value_hash. now rewrite E.
  - intro E. apply placeholder_eqb_eq in E. now subst.
  - intro E. apply math_eqb_eq in E. now subst.
Qed.
Print Assumptions C35_hash.

(** A page moved down by a line is equal and not strictly equal; definition
    values are equal when their texts are, whatever their decoration. *)
Definition moved : str := ln "a *b* [[x]]" ++ ln "" ++ ln "|c|d|".
Definition page_a : page := Eval vm_compute in page_of moved.
Definition page_b : page := Eval vm_compute in page_of (ln "" ++ moved).
Example C35_case :
  page_of moved = page_a /\ page_of (ln "" ++ moved) = page_b /\
  describes loose_eqb loose /\ ok_page page_a /\ ok_page page_b /\
  page_eqb loose_eqb page_a page_b = true /\
  page_strict loose_eqb page_a page_b = false /\
  page_strict loose_eqb page_a page_a = true /\
  page_values linkless page_a /\
  page_eqb loose_eqb (page_of (ln "*a*:: x")) (page_of (ln "a:: x")) = true /\
  page_eqb loose_eqb (page_of (ln "a *b*")) (page_of (ln "a b")) = false.
Proof.
  assert (T : forall t, table_new (t_cells t) (t_centered t) = t -> all (fun kv => ok_cell (l_val (snd kv))) (t_cells t) -> ok_table t).
  { intros t E A. destruct (recount t E). now split. }
  split; [vm_compute; reflexivity|]. split; [vm_compute; reflexivity|]. split; [apply loose_describes|].
  split; [split; [|split; [apply T; [reflexivity|]|]]; cbn; tauto|].
  split; [split; [|split; [apply T; [reflexivity|]|]]; cbn; tauto|].
  do 3 (split; [vm_compute; reflexivity|]). split; [cbn; tauto|]. split; vm_compute; reflexivity.
Qed.
(** Properties of a link in another order. *)
Definition pic (m : list (str * str)) : container :=
  [Loc (ILink (LTransclusion (LinkData (Uri None None false [bs "x"] None None) None (Some m)))) (Region 0 9 0)].
Example C35_hash_case :
  let a := pic [(bs "k", bs "1"); (bs "j", bs "2")] in let b := pic [(bs "j", bs "2"); (bs "k", bs "1")] in
  let h := fun u => map TkStr (u_segs (loose u)) in
  (forall u v, loose_eqb u v = true -> h u = h v) /\
  ok_cont a /\ ok_cont b /\ a <> b /\ container_eqb loose_eqb a b = true /\ container_hash h a = container_hash h b.
Proof.
  cbn zeta. split; [|split; [|split; [|split; [|split]]]].
  - intros u v E. apply loose_describes in E. now rewrite E.
  - cbn. repeat split; auto. repeat constructor; cbn; intuition discriminate.
  - cbn. repeat split; auto. repeat constructor; cbn; intuition discriminate.
  - discriminate.
  - vm_compute. reflexivity.
  - vm_compute. reflexivity.
Qed.
