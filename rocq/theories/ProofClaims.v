(** The claims about parsed pages, from the page contract. *)
From Verif Require Import Base ModelSpan ModelComb ModelAst ModelTable ModelLink ModelInline ModelBlock
  SpecDoc SpecBlock SpecTree ProofBase ProofContract ProofPage ProofTree ProofEnv.

Section Claims.
Variable up : str -> option uri.
Variable dp : str -> option date.
Variable input : str.
Variable rest : span.
Variable p : page.

Local Notation parses := (parse_page up dp input = Ok rest p).
Local Notation soft := (soft_boundary input).
Local Notation stop r := (r_off r + r_len r).
Local Notation src r := (slice (r_off r) (stop r) input).

Lemma claim_not_err : parse_page up dp input <> Err.
Proof. intro H. pose proof (parse_page_sound up dp input) as K. now rewrite H in K. Qed.

Lemma claim_terminates : parse_page up dp input <> OutOfFuel.
Proof. intro H. pose proof (parse_page_sound up dp input) as K. now rewrite H in K. Qed.

Lemma claim_consumes : parses -> sp_start rest = length input /\ sp_end rest = length input.
Proof. intro H. pose proof (parse_page_sound up dp input) as K. rewrite H in K. tauto. Qed.

Lemma claim_panic : parse_page up dp input = Panic ->
  cut_link up input \/ bad_diary up input \/ split_space input.
Proof. intro H. pose proof (parse_page_sound up dp input) as K. rewrite H in K. exact K. Qed.

Lemma claim_no_panic :
  valid_utf8 input -> ~ wide_space input -> ~ cut_link up input -> ~ bad_diary up input ->
  exists s q, parse_page up dp input = Ok s q.
Proof.
  intros Hv H1 H2 H3. pose proof (parse_page_sound up dp input) as K.
  destruct (parse_page up dp input) as [s q| | |]; [eauto| | |]; try contradiction.
  destruct K as [K|[K|K]]; try contradiction. apply split_wide in K; auto; contradiction.
Qed.

Lemma claim_in_bounds r n : parses -> In (r, n) (elements p) -> stop r <= length input.
Proof. intros H Hin. now apply (parse_page_elements up dp input _ _ _ _ H Hin). Qed.

Lemma claim_nested : parses -> forest (tree_ok 0) 0 (page_trees false p) (length input).
Proof. intro H. eapply page_forest, parse_page_ok, H. Qed.

Lemma node_claim r n : parses -> In (r, n) (elements p) ->
  (match n with NPair _ | NBundle _ => False | _ => True end) ->
  node_ok up dp input soft (r_depth r) (r_off r) (stop r) n.
Proof.
  intros H Hin Hn. destruct (parse_page_elements up dp input _ _ _ _ H Hin) as (_ & _ & K).
  cbn [fst snd] in K. destruct n; try contradiction; apply K.
Qed.

Lemma claim_text r t : parses -> In (r, NInline (IText t)) (elements p) -> t = src r.
Proof. intros H Hin. apply (node_claim r _ H Hin I). Qed.

Lemma claim_deco_text r t : parses -> In (r, NDeco (DCText t)) (elements p) -> t = src r.
Proof. intros H Hin. apply (node_claim r _ H Hin I). Qed.

Lemma claim_boundary r n : parses -> valid_utf8 input -> In (r, n) (elements p) ->
  boundary input (r_off r) /\
  match n with NPair _ => True | _ => boundary input (stop r) /\ valid_utf8 (src r) end.
Proof.
  intros H Hv Hin. destruct (parse_page_elements up dp input _ _ _ _ H Hin) as (_ & Hb & K).
  cbn [fst snd] in *. split; [now apply Hb|].
  assert (K' : match n with NPair _ => True | _ => soft (stop r) end) by (destruct n; tauto).
  clear K. destruct n; auto; (split; [now apply K'|]; apply boundary_slice; [lia | now apply Hb | now apply K']).
Qed.

(** ** Blocks *)

Lemma claim_block r b : parses -> In (r, NBlock b) (elements p) ->
  exists top, block_ok up dp input soft top (r_depth r) (r_off r) (stop r) b.
Proof. intros H Hin. exact (node_claim r _ H Hin I). Qed.

Lemma claim_header r h : parses -> In (r, NBlock (BHeader h)) (elements p) ->
  header_ok up dp input soft (r_depth r) (r_off r) (stop r) h.
Proof. intros H Hin. destruct (claim_block r _ H Hin) as [top K]. exact K. Qed.

Lemma claim_divider r : parses -> In (r, NBlock BDivider) (elements p) -> divider_ok input (r_off r) (stop r).
Proof. intros H Hin. destruct (claim_block r _ H Hin) as [top K]. exact K. Qed.

Lemma claim_list_pos r items : parses -> In (r, NBlock (BList items)) (elements p) ->
  items <> [] /\ map (fun x => li_pos (l_val x)) items = seq 0 (length items).
Proof.
  intros H Hin. destruct (claim_block r _ H Hin) as [top K]. cbn [block_ok] in K.
  destruct K as (_ & K1 & (x & l & -> & _) & _). split; auto. discriminate.
Qed.

Lemma claim_list_type r items : parses -> In (r, NBlock (BList items)) (elements p) ->
  exists first others, items = first :: others /\
    Forall (fun x => li_ty (l_val x) = li_ty (l_val first)) others /\
    exists pre, prefix_ok (li_ty (l_val first)) (li_suffix (l_val first)) pre /\
                starts_with pre (slice (r_off (l_reg first)) (stop r) input) = true.
Proof.
  intros H Hin. destruct (claim_block r _ H Hin) as [top K]. cbn [block_ok] in K. tauto.
Qed.

Lemma claim_item r i : parses -> In (r, NItem i) (elements p) ->
  exists k, item_ok up dp input soft k (r_depth r) (r_off r) (stop r) i.
Proof. intros H Hin. exact (node_claim r _ H Hin I). Qed.

Lemma claim_item_content r i : parses -> In (r, NItem i) (elements p) -> li_contents i <> [].
Proof.
  intros H Hin. destruct (claim_item r i H Hin) as [k K]. destruct i. cbn [item_ok] in K. apply K.
Qed.

Lemma claim_table r t : parses -> In (r, NBlock (BTable t)) (elements p) ->
  exists nested, table_ok up dp input soft nested (r_depth r) (r_off r) (stop r) t.
Proof. intros H Hin. destruct (claim_block r _ H Hin) as [top K]. exists (negb top). exact K. Qed.

Lemma claim_defs r l : parses -> In (r, NBlock (BDefList l)) (elements p) ->
  l <> [] /\ def_items_ok up dp input soft (S (r_depth r)) (r_off r) l (stop r).
Proof. intros H Hin. destruct (claim_block r _ H Hin) as [top K]. exact K. Qed.

Lemma claim_code r c : parses -> In (r, NBlock (BCode c)) (elements p) -> code_text input (stop r) c (src r).
Proof. intros H Hin. destruct (claim_block r _ H Hin) as [top K]. exact K. Qed.
Lemma claim_math r c : parses -> In (r, NBlock (BMath c)) (elements p) -> math_text input (stop r) c (src r).
Proof. intros H Hin. destruct (claim_block r _ H Hin) as [top K]. exact K. Qed.
Lemma claim_quote r ls : parses -> In (r, NBlock (BBlockquote ls)) (elements p) -> blockquote_ok input (r_off r) (stop r) ls.
Proof. intros H Hin. destruct (claim_block r _ H Hin) as [top K]. exact K. Qed.
Lemma claim_paragraph r ls : parses -> In (r, NBlock (BParagraph ls)) (elements p) ->
  ls <> [] /\ para_ok up dp input soft (r_depth r) (r_off r) ls (stop r).
Proof. intros H Hin. destruct (claim_block r _ H Hin) as [top K]. exact K. Qed.
Lemma claim_placeholder r x : parses -> In (r, NBlock (BPlaceholder x)) (elements p) ->
  bol input (r_off r) /\ placeholder_text_ok dp x (src r) /\ line_ends input (stop r).
Proof. intros H Hin. destruct (claim_block r _ H Hin) as [top K]. exact K. Qed.

(** ** Inline elements *)

Lemma claim_inline r x : parses -> In (r, NInline x) (elements p) ->
  inline_ok up dp input soft (r_depth r) (r_off r) (stop r) x.
Proof. intros H Hin. exact (node_claim r _ H Hin I). Qed.

End Claims.
