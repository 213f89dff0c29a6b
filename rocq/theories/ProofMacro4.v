(** What a macro's page says, compared with the page that was parsed. *)
From Coq Require Import Lia Arith NArith.
From Verif Require Import Base ModelSpan ModelAst ModelTable ModelLink ModelElem ModelVimwiki ModelMacro SpecEq SpecMacro ProofBase ProofTree.
From Verif Require Import ProofMacro2.
From Verif Require ProofJson3 ProofMacro.
Local Open Scope nat_scope.

(** * Maps listed by key *)

Section By.
Context {K V W : Type}.
Variable leb : K -> K -> bool.
Variable h : V -> W.
Notation on := (fun kv : K * V => (fst kv, h (snd kv))).
Lemma put_map p l : put leb (on p) (map on l) = map on (put leb p l).
Proof. induction l as [|x l IH]; cbn [put map]; [reflexivity|]. cbn [fst]. destruct (leb (fst p) (fst x)); [reflexivity|]. cbn [map]. now rewrite IH. Qed.
Lemma by_key_map l : by_key leb (map on l) = map on (by_key leb l).
Proof. induction l as [|x l IH]; [reflexivity|]. cbn [map by_key fold_right]. fold (by_key leb (map on l)). fold (by_key leb l). now rewrite IH, put_map. Qed.
End By.
Lemma put_in {K V} (leb : K -> K -> bool) (p : K * V) l x : In x (put leb p l) <-> x = p \/ In x l.
Proof.
  induction l as [|y l IH]; cbn [put]; [cbn; intuition|]. destruct (leb (fst p) (fst y)); cbn [In]; [intuition|]. rewrite IH. intuition.
Qed.
Lemma by_key_in {K V} (leb : K -> K -> bool) (l : list (K * V)) x : In x (by_key leb l) <-> In x l.
Proof. induction l as [|y l IH]; [reflexivity|]. cbn [by_key fold_right]. fold (by_key leb l). rewrite put_in, IH. cbn [In]. intuition. Qed.

(** * Maps with any property *)

Section Any.
Variable P : list (str * str) -> Prop.
Hypothesis any : forall m, P m.
Lemma all_any {A} (Q : A -> Prop) l : (forall x, Q x) -> all Q l.
Proof. intro H. induction l; cbn [all]; auto. Qed.
Fixpoint desc_any d : desc_maps P d
with data_any x : data_maps P x.
Proof.
  - destruct d as [t|x]; [exact I|exact (data_any x)].
  - destruct x as [u d p]. split; [destruct d as [y|]; [exact (desc_any y)|exact I]|destruct p; [apply any|exact I]].
Qed.
Lemma dc_any c : dc_maps P c.
Proof.
  induction c as [t|k cs IH|k|l] using dcontent_ind'; cbn [dc_maps]; auto; [apply all_forall; exact IH|apply data_any].
Qed.
Lemma cont_any c : cont_maps P c.
Proof. apply all_any. intros [i r]. destruct i; cbn [l_val inline_maps]; auto; [apply all_any; intro; apply dc_any|apply data_any]. Qed.
Lemma page_any p : page_maps P p.
Proof.
  apply all_any. intros [b r]. cbn [l_val]. revert b. apply (ProofJson3.both_ind (block_maps P) (item_maps P)).
  - intros b N. destruct b as [ls|d| |h|items|m|ls|p'|c|t]; cbn [block_maps]; auto.
    + apply all_any. intro x. split; [apply cont_any|apply all_any; intro; apply cont_any].
    + apply cont_any.
    + exfalso. now apply (N items).
    + apply all_any. exact cont_any.
    + apply all_any. intro x. destruct x as [k [[]]]; cbn [cell_maps l_val snd]; auto. apply cont_any.
  - intros items F. now apply all_forall.
  - intros ty suf pos cs todo F. now apply all_forall.
Qed.
End Any.

Section Impl.
Variables P Q : list (str * str) -> Prop.
Hypothesis impl : forall m, P m -> Q m.
Lemma all_impl {A} (R S : A -> Prop) l : (forall x, R x -> S x) -> all R l -> all S l.
Proof. intro H. induction l; cbn [all]; intuition. Qed.
Fixpoint desc_maps_impl d : desc_maps P d -> desc_maps Q d
with data_maps_impl x : data_maps P x -> data_maps Q x.
Proof.
  - destruct d as [t|x]; [auto|exact (data_maps_impl x)].
  - destruct x as [u d p]. intros [M1 M2]. split; [destruct d as [y|]; [exact (desc_maps_impl y M1)|exact I]|destruct p; [exact (impl _ M2)|exact I]].
Qed.
Lemma dc_maps_impl c : dc_maps P c -> dc_maps Q c.
Proof.
  induction c as [t|k cs IH|k|l] using dcontent_ind'; cbn [dc_maps]; auto; intro M; [|now apply data_maps_impl].
  rewrite all_forall, Forall_forall in *. intros x I. exact (IH x I (M x I)).
Qed.
Lemma cont_maps_impl c : cont_maps P c -> cont_maps Q c.
Proof.
  apply all_impl. intros [i r]. destruct i; cbn [l_val inline_maps]; auto; [apply all_impl; intro; apply dc_maps_impl|apply data_maps_impl].
Qed.
Lemma page_maps_impl p : page_maps P p -> page_maps Q p.
Proof.
  apply all_impl. intros [b r]. cbn [l_val]. revert b. apply (ProofJson3.both_ind (fun b => block_maps P b -> block_maps Q b) (fun i => item_maps P i -> item_maps Q i)).
  - intros b N. destruct b as [ls|d| |h|items|m|ls|p'|c|t]; cbn [block_maps]; auto.
    + apply all_impl. intros x [M1 M2]. split; [exact (cont_maps_impl _ M1)|]. revert M2. apply all_impl. intro. apply cont_maps_impl.
    + apply cont_maps_impl.
    + exfalso. now apply (N items).
    + apply all_impl. exact cont_maps_impl.
    + apply all_impl. intros [k [[] r']]; cbn [cell_maps l_val snd]; auto. apply cont_maps_impl.
  - intros items F M. cbn [block_maps] in *. rewrite all_forall, Forall_forall in *. intros x I. exact (F x I (M x I)).
  - intros ty suf pos cs todo F M. cbn [item_maps] in *. rewrite all_forall, Forall_forall in *. intros x I. exact (F x I (M x I)).
Qed.
End Impl.

(** * Changed texts and normal forms *)

Section Commute.
Variable ft : str -> str.
Variable cu : uri -> uri.
Notation nr := nowhere.
Notation sk := (same_keys ft).

Lemma n_map_m m : sk m -> n_map (m_map ft m) = m_map ft (n_map m).
Proof.
  intro H. unfold n_map, m_map. unfold same_keys in H. rewrite Forall_forall in H.
  rewrite (map_ext_in _ (fun kv => (fst kv, ft (snd kv)))) by (intros x I; now rewrite (H x I)).
  rewrite by_key_map. apply map_ext_in. intros x I. apply by_key_in in I. now rewrite (H x I).
Qed.
Fixpoint n_desc_m d : desc_maps sk d -> n_desc cu (m_desc ft d) = m_desc ft (n_desc cu d)
with n_data_m x : data_maps sk x -> n_data cu (m_data ft x) = m_data ft (n_data cu x).
Proof.
  - destruct d as [t|x]; intro M; [reflexivity|]. exact (f_equal DescTransclusion (n_data_m x M)).
  - destruct x as [u d p]. intros [M1 M2]. cbn [m_data n_data]. f_equal.
    + destruct d as [y|]; [|reflexivity]. exact (f_equal Some (n_desc_m y M1)).
    + destruct p as [m|]; [|reflexivity]. cbn [option_map]. now rewrite n_map_m.
Qed.
Lemma n_link_m l : link_maps sk l -> n_link cu (m_link ft l) = m_link ft (n_link cu l).
Proof. intro M. destruct l; cbn [m_link n_link]; f_equal; apply n_data_m; exact M. Qed.
Lemma n_loc_m {A} (f g : A -> A) x : f (g (l_val x)) = g (f (l_val x)) -> n_loc nr f (m_loc shallow g x) = m_loc shallow g (n_loc nr f x).
Proof. intro H. unfold n_loc, m_loc. cbn [l_val l_reg]. now rewrite H. Qed.
Lemma n_locs_m {A} (f g : A -> A) l : Forall (fun x => f (g (l_val x)) = g (f (l_val x))) l ->
  map (n_loc nr f) (map (m_loc shallow g) l) = map (m_loc shallow g) (map (n_loc nr f) l).
Proof.
  intro H. rewrite !map_map. apply map_ext_in. intros x I. rewrite Forall_forall in H. unfold n_loc, m_loc. cbn [l_val l_reg]. now rewrite (H x I).
Qed.
Lemma n_dc_m c : dc_maps sk c -> n_dc cu nr (m_dc ft shallow c) = m_dc ft shallow (n_dc cu nr c).
Proof.
  induction c as [t|k cs IH|k|l] using dcontent_ind'; intro M; cbn [m_dc n_dc dc_maps] in *; try reflexivity.
  - f_equal. apply n_locs_m. rewrite all_forall, Forall_forall in *. intros x I. exact (IH x I (M x I)).
  - f_equal. now apply n_link_m.
Qed.
Lemma n_inline_m i : inline_maps sk i -> n_inline cu nr (m_inline ft shallow i) = m_inline ft shallow (n_inline cu nr i).
Proof.
  intro M. destruct i as [t|k cs|k|l|ts|t|t|[t|ls]]; cbn [m_inline n_inline inline_maps] in *; try reflexivity; f_equal.
  - apply n_locs_m. rewrite all_forall, Forall_forall in *. intros x I. exact (n_dc_m _ (M x I)).
  - now apply n_link_m.
Qed.
Lemma n_cont_m c : cont_maps sk c -> n_cont cu nr (m_cont ft shallow c) = m_cont ft shallow (n_cont cu nr c).
Proof. intro M. apply n_locs_m. unfold cont_maps in M. rewrite all_forall, Forall_forall in *. intros x I. exact (n_inline_m _ (M x I)). Qed.
Notation nc := (n_cont cu nr).
Lemma n_td_m t : td_values (cont_maps sk) t -> n_td nr nc (m_td ft shallow t) = m_td ft shallow (n_td nr nc t).
Proof.
  intros [M1 M2]. unfold n_td, m_td. cbn [td_term td_defs]. f_equal; apply n_loc_m; [exact (n_cont_m _ M1)|]. apply n_locs_m. rewrite all_forall, Forall_forall in *. intros x I. exact (n_cont_m _ (M2 x I)).
Qed.
Lemma n_cell_m c : cell_maps sk c -> n_cell cu nr (m_cell ft shallow c) = m_cell ft shallow (n_cell cu nr c).
Proof. destruct c; intro M; cbn [m_cell n_cell]; [|reflexivity|reflexivity]. f_equal. now apply n_cont_m. Qed.
Lemma n_table_m t : all (fun kv => cell_maps sk (l_val (snd kv))) (t_cells t) ->
  n_table cu nr (m_table ft shallow t) = m_table ft shallow (n_table cu nr t).
Proof.
  intro M. unfold n_table, m_table. cbn [t_cells t_row_cnt t_col_cnt t_centered]. f_equal.
  rewrite !by_key_map. rewrite !map_map. cbn [fst snd]. apply map_ext_in. intros x I. apply by_key_in in I. f_equal.
  rewrite all_forall, Forall_forall in M. unfold n_loc, m_loc. cbn [l_val l_reg]. now rewrite n_cell_m by exact (M x I).
Qed.
Lemma n_block_item_m : (forall b, block_maps sk b -> n_block cu nr nc (m_block ft shallow b) = m_block ft shallow (n_block cu nr nc b)) /\
  (forall i, item_maps sk i -> n_item cu nr nc (m_item ft shallow i) = m_item ft shallow (n_item cu nr nc i)).
Proof.
  apply (ProofJson3.both_ind (fun b => block_maps sk b -> n_block cu nr nc (m_block ft shallow b) = m_block ft shallow (n_block cu nr nc b))
    (fun i => item_maps sk i -> n_item cu nr nc (m_item ft shallow i) = m_item ft shallow (n_item cu nr nc i))).
  - intros b N M. destruct b as [ls|d| |h|items|m|ls|p|c|t]; cbn [m_block n_block block_maps] in *; try reflexivity.
    + f_equal. apply n_locs_m. rewrite all_forall, Forall_forall in *. intros x I. exact (n_td_m _ (M x I)).
    + f_equal. unfold n_header. cbn [h_content h_level h_centered]. now rewrite n_cont_m.
    + exfalso. now apply (N items).
    + f_equal. rewrite !map_map. apply map_ext_in. rewrite all_forall, Forall_forall in *. intros x I. exact (n_cont_m _ (M x I)).
    + f_equal. cbn [cb_lang cb_meta cb_lines]. now rewrite n_map_m.
    + f_equal. now apply n_table_m.
  - intros items F M. cbn [m_block n_block block_maps] in *. f_equal. apply n_locs_m. rewrite all_forall, Forall_forall in *. intros x I. exact (F x I (M x I)).
  - intros ty suf pos cs todo F M. cbn [m_item n_item item_maps] in *. f_equal. apply n_locs_m. rewrite all_forall, Forall_forall in *. intros x I. exact (F x I (M x I)).
Qed.
Theorem full_content_m p : page_maps sk p -> full_content_of cu (m_page ft shallow p) = m_page ft shallow (full_content_of cu p).
Proof.
  intro M. unfold full_content_of, n_page, m_page, page_maps in *. apply n_locs_m. rewrite all_forall, Forall_forall in *.
  intros x I. exact (proj1 n_block_item_m _ (M x I)).
Qed.
End Commute.

(** * Unchanged texts *)

Notation idt := (fun t : str => t).
Lemma map_idt (l : list str) : map idt l = l.
Proof. apply map_id. Qed.
Lemma m_map_idt m : m_map idt m = m.
Proof. unfold m_map. rewrite <- (map_id m) at 2. apply map_ext. now intros []. Qed.
Fixpoint m_desc_idt d : m_desc idt d = d
with m_data_idt x : m_data idt x = x.
Proof.
  - destruct d as [t|x]; [reflexivity|]. exact (f_equal DescTransclusion (m_data_idt x)).
  - destruct x as [u d p]. cbn [m_data]. f_equal.
    + destruct d as [y|]; [|reflexivity]. exact (f_equal Some (m_desc_idt y)).
    + destruct p as [m|]; [|reflexivity]. cbn [option_map]. now rewrite m_map_idt.
Qed.
Lemma m_link_idt l : m_link idt l = l.
Proof. destruct l; cbn [m_link]; now rewrite m_data_idt. Qed.
Section Same.
Variable cu : uri -> uri.
Notation nr := nowhere.
Lemma loc_idt {A} (f g : A -> A) x : f (g (l_val x)) = f (l_val x) -> n_loc nr f (m_loc shallow g x) = n_loc nr f x.
Proof. intro H. unfold n_loc, m_loc. cbn [l_val l_reg]. now rewrite H. Qed.
Lemma locs_idt {A} (f g : A -> A) l : Forall (fun x => f (g (l_val x)) = f (l_val x)) l ->
  map (n_loc nr f) (map (m_loc shallow g) l) = map (n_loc nr f) l.
Proof.
  intro H. rewrite map_map. apply map_ext_in. intros x I. rewrite Forall_forall in H. unfold n_loc, m_loc. cbn [l_val l_reg]. now rewrite (H x I).
Qed.
Lemma n_dc_idt c : n_dc cu nr (m_dc idt shallow c) = n_dc cu nr c.
Proof.
  induction c as [t|k cs IH|k|l] using dcontent_ind'; cbn [m_dc n_dc]; try reflexivity.
  - f_equal. now apply locs_idt.
  - now rewrite m_link_idt.
Qed.
Lemma n_inline_idt i : n_inline cu nr (m_inline idt shallow i) = n_inline cu nr i.
Proof.
  destruct i as [t|k cs|k|l|ts|t|t|[t|ls]]; cbn [m_inline n_inline]; try reflexivity; f_equal; rewrite ?map_id, ?m_link_idt; try reflexivity.
  apply locs_idt. apply Forall_forall. intros x _. apply n_dc_idt.
Qed.
Lemma n_cont_idt c : n_cont cu nr (m_cont idt shallow c) = n_cont cu nr c.
Proof. apply locs_idt. apply Forall_forall. intros x _. apply n_inline_idt. Qed.
Lemma dc_display_idt c : dcontent_display (m_dc idt shallow c) = dcontent_display c.
Proof.
  induction c as [t|k cs IH|k|l] using dcontent_ind'; cbn [m_dc dcontent_display]; try reflexivity.
  - induction IH as [|x cs H F IH]; cbn [map flat_map]; [reflexivity|]. now rewrite IH, <- H.
  - now rewrite m_link_idt.
Qed.
Lemma display_idt c : container_display (m_cont idt shallow c) = container_display c.
Proof.
  unfold container_display, m_cont. induction c as [|[i r] c IH]; cbn [map flat_map]; [reflexivity|]. rewrite IH. f_equal. unfold m_loc. cbn [l_val].
  destruct i as [t|k cs|k|l|ts|t|t|[t|ls]]; cbn [m_inline inline_display]; try reflexivity; rewrite ?map_id, ?m_link_idt; try reflexivity.
  clear. induction cs as [|x cs IH]; cbn [map flat_map]; [reflexivity|]. rewrite IH. unfold m_loc at 1. cbn [l_val]. now rewrite dc_display_idt.
Qed.
Variable cv : container -> container.
Hypothesis cv_idt : forall c, cv (m_cont idt shallow c) = cv c.
Lemma n_table_idt t : n_table cu nr (m_table idt shallow t) = n_table cu nr t.
Proof.
  unfold n_table, m_table. cbn [t_cells t_row_cnt t_col_cnt t_centered]. f_equal. f_equal. rewrite map_map. apply map_ext. intros [k [c r]]. cbn [fst snd].
  unfold n_loc, m_loc. cbn [l_val l_reg]. f_equal. f_equal. destruct c; cbn [m_cell n_cell]; [|reflexivity|reflexivity]. now rewrite n_cont_idt.
Qed.
Lemma n_block_item_idt : (forall b, n_block cu nr cv (m_block idt shallow b) = n_block cu nr cv b) /\
  (forall i, n_item cu nr cv (m_item idt shallow i) = n_item cu nr cv i).
Proof.
  apply ProofJson3.both_ind.
  - intros b N. destruct b as [ls|d| |h|items|m|ls|p|c|t]; cbn [m_block n_block]; try reflexivity; rewrite ?map_id; try reflexivity.
    + f_equal. apply locs_idt. apply Forall_forall. intros x _. unfold n_td, m_td. cbn [td_term td_defs]. f_equal; apply loc_idt; [apply cv_idt|]. apply locs_idt. apply Forall_forall. intros y _. apply cv_idt.
    + f_equal. unfold n_header. cbn [h_content h_level h_centered]. now rewrite n_cont_idt.
    + exfalso. now apply (N items).
    + destruct m as [ls [e|]]; cbn [mb_lines mb_env option_map]; reflexivity.
    + f_equal. rewrite map_map. apply map_ext. intro x. apply n_cont_idt.
    + destruct p; reflexivity.
    + f_equal. cbn [cb_lang cb_meta cb_lines]. rewrite m_map_idt. destruct c as [[l|] m ls]; reflexivity.
    + f_equal. apply n_table_idt.
  - intros items F. cbn [m_block n_block]. f_equal. now apply locs_idt.
  - intros ty suf pos cs todo F. cbn [m_item n_item]. f_equal; [destruct ty as [|[]]; reflexivity|]. now apply locs_idt.
Qed.
Theorem content_idt p : n_page cu nr cv (flat p) = n_page cu nr cv p.
Proof. apply locs_idt. apply Forall_forall. intros x _. apply n_block_item_idt. Qed.
End Same.
Theorem flat_content cu p : content_of cu (flat p) = content_of cu p.
Proof. apply content_idt. intro c. unfold as_text. now rewrite display_idt. Qed.
Theorem flat_full_content cu p : full_content_of cu (flat p) = full_content_of cu p.
Proof. apply content_idt. intro c. apply n_cont_idt. Qed.

(** * Maps stay maps *)

Lemma m_dc_ok c : ok_dc c -> ok_dc (m_dc idt shallow c).
Proof.
  induction c as [t|k cs IH|k|l] using dcontent_ind'; cbn [m_dc ok_dc]; auto; intro O.
  - apply all_forall, Forall_map. apply all_forall in O. rewrite Forall_forall in *. intros x I. exact (IH x I (O x I)).
  - now rewrite m_link_idt.
Qed.
Lemma m_cont_ok c : ok_cont c -> ok_cont (m_cont idt shallow c).
Proof.
  intro O. apply all_forall, Forall_map. apply all_forall in O. eapply Forall_impl; [|exact O]. intros [i r]. unfold m_loc. cbn [l_val].
  destruct i as [t|k cs|k|l|ts|t|t|[t|ls]]; cbn [m_inline ok_inline]; auto; intro H.
  - apply all_forall, Forall_map. apply all_forall in H. eapply Forall_impl; [|exact H]. intros x Hx. now apply m_dc_ok.
  - now rewrite m_link_idt.
Qed.
Lemma flat_ok p : ok_page p -> ok_page (flat p).
Proof.
  intro O. unfold ok_page in *. apply all_forall, Forall_map. apply all_forall in O. eapply Forall_impl; [|exact O]. intros [b r]. unfold m_loc. cbn [l_val]. clear.
  revert b. apply (ProofJson3.both_ind (fun b => ok_block b -> ok_block (m_block idt shallow b)) (fun i => ok_item i -> ok_item (m_item idt shallow i))).
  - intros b N O. destruct b as [ls|d| |h|items|m|ls|p'|c|t]; cbn [m_block ok_block h_content cb_meta] in *; auto.
    + apply all_forall, Forall_map. apply all_forall in O. eapply Forall_impl; [|exact O]. intros x [O1 O2]. split; [exact (m_cont_ok _ O1)|].
      unfold m_loc at 1. unfold m_td. cbn [l_val td_defs]. unfold m_loc at 1. cbn [l_val]. apply all_forall, Forall_map. apply all_forall in O2. eapply Forall_impl; [|exact O2].
      intros y Oy. exact (m_cont_ok _ Oy).
    + now apply m_cont_ok.
    + exfalso. now apply (N items).
    + apply all_forall, Forall_map. apply all_forall in O. eapply Forall_impl; [|exact O]. exact m_cont_ok.
    + now rewrite m_map_idt.
    + destruct O as (K & [C1 C2] & O). split; [|split].
      * unfold keyed, m_table in *. cbn [t_cells]. rewrite map_map. exact K.
      * unfold m_table. cbn [t_cells]. split; intro n; cbn [t_row_cnt t_col_cnt t_cells]; [rewrite C1|rewrite C2]; split; intros H k x I.
        -- apply in_map_iff in I as ([k' x'] & E & I). injection E as <- _. exact (H _ _ I).
        -- apply (H k (m_loc shallow (m_cell idt shallow) x)). apply in_map_iff. exists (k, x). auto.
        -- apply in_map_iff in I as ([k' x'] & E & I). injection E as <- _. exact (H _ _ I).
        -- apply (H k (m_loc shallow (m_cell idt shallow) x)). apply in_map_iff. exists (k, x). auto.
      * unfold m_table. cbn [t_cells]. apply all_forall, Forall_map. apply all_forall in O. eapply Forall_impl; [|exact O]. intros [k [c r]]. cbn [fst snd l_val]. unfold m_loc. cbn [l_val].
        destruct c; cbn [m_cell ok_cell]; auto. apply m_cont_ok.
  - intros items F O. cbn [m_block ok_block] in *. apply all_forall, Forall_map. apply all_forall in O. rewrite Forall_forall in *. intros x I. exact (F x I (O x I)).
  - intros ty suf pos cs todo F O. cbn [m_item ok_item] in *. apply all_forall, Forall_map. apply all_forall in O. rewrite Forall_forall in *. intros x I. exact (F x I (O x I)).
Qed.

(** * Texts with placeholders *)

Section Texts.
Context {V : Type}.
Variable args : list V.
Variable names : list (str * V).
Variable show : V -> str -> option str.
Hypothesis few : (N.of_nat (length args) <= usize_bound)%N.
Notation q := (format_str args names show).

Lemma format_str_run c ps : Forall piece_ok ps ->
  q (format_src ps) c = match fill args names show c ps with Some t => Some ((c + nexts ps)%N, t) | None => None end.
Proof. intro F. unfold format_str. now rewrite (ProofMacro.formatted_run args names show few c ps F). Qed.
Lemma format_str_plain t c : no_braces t -> q t c = Some (c, t).
Proof.
  intro H. assert (F : Forall piece_ok [FText t]) by (constructor; [exact H|constructor]).
  pose proof (format_str_run c [FText t] F) as E. unfold format_src in E. cbn [flat_map piece_src nexts fill glue] in E.
  rewrite !app_nil_r, N.add_0_r in E. exact E.
Qed.
Lemma g_each_format pss : forall c, Forall (Forall piece_ok) pss ->
  match fill_all args names show c pss with
  | Some ts => exists c', g_each q (map format_src pss) c = Some (c', ts)
  | None => g_each q (map format_src pss) c = None
  end.
Proof.
  induction pss as [|ps pss IH]; intros c F; cbn [fill_all map g_each]; [exists c; reflexivity|].
  inversion F as [|? ? F1 F2]; subst. unfold gbind at 1 3. rewrite (format_str_run c ps F1). destruct (fill args names show c ps) as [t|]; [|reflexivity].
  specialize (IH (c + nexts ps)%N F2). destruct (fill_all args names show (c + nexts ps) pss) as [ts|].
  - destruct IH as [c' E]. exists c'. unfold gbind. now rewrite E.
  - unfold gbind. now rewrite IH.
Qed.
Lemma plain_fixed p : plain_keys p -> page_maps (fixed_keys q) p.
Proof.
  unfold plain_keys. apply page_maps_impl. intros m H. eapply Forall_impl; [|exact H]. intros kv N n. now apply format_str_plain.
Qed.
End Texts.
