(** When two elements say the same: their normal forms are the same.  A normal
    form forgets what equality is to ignore and nothing else; finite maps are
    listed by key.  Written without the comparisons of ModelEq. *)
From Verif Require Import Base ModelSpan ModelAst ModelTable ModelElem ModelVimwiki.

(** * Finite maps, listed by key *)

Section Sort.
Context {K V : Type}.
Variable leb : K -> K -> bool.
Fixpoint put (p : K * V) (l : list (K * V)) : list (K * V) :=
  match l with
  | [] => [p]
  | q :: l' => if leb (fst p) (fst q) then p :: q :: l' else q :: put p l'
  end.
Definition by_key (l : list (K * V)) : list (K * V) := fold_right put [] l.
End Sort.
Definition pos_leb (a b : cellpos) : bool :=
  (cp_row a <? cp_row b) || ((cp_row a =? cp_row b) && (cp_col a <=? cp_col b)).

(** * Normal forms *)

Section Norm.
(** What becomes of URIs, of regions and of the values of definition lists. *)
Variable cu : uri -> uri.
Variable cr : region -> region.
Definition n_loc {A} (f : A -> A) (x : located A) : located A := Loc (f (l_val x)) (cr (l_reg x)).

Definition n_map (m : list (str * str)) : list (str * str) := by_key str_leb m.
Fixpoint n_desc (d : description) : description :=
  match d with
  | DescText t => DescText t
  | DescTransclusion x => DescTransclusion (n_data x)
  end
with n_data (x : link_data) : link_data :=
  match x with
  | LinkData u d p =>
      LinkData (cu u) (match d with Some y => Some (n_desc y) | None => None end) (option_map n_map p)
  end.
Definition n_link (l : link) : link :=
  match l with
  | LWiki d => LWiki (n_data d)
  | LIndexed i d => LIndexed i (n_data d)
  | LNamed n d => LNamed n (n_data d)
  | LDiary t d => LDiary t (n_data d)
  | LRaw d => LRaw (n_data d)
  | LTransclusion d => LTransclusion (n_data d)
  end.
Fixpoint n_dc (c : dcontent) : dcontent :=
  match c with
  | DCText t => DCText t
  | DCDeco k cs => DCDeco k (map (n_loc n_dc) cs)
  | DCKeyword k => DCKeyword k
  | DCLink l => DCLink (n_link l)
  end.
Definition n_inline (i : inline) : inline :=
  match i with
  | IDeco k cs => IDeco k (map (n_loc n_dc) cs)
  | ILink l => ILink (n_link l)
  | _ => i
  end.
Definition n_cont (c : container) : container := map (n_loc n_inline) c.

Variable cv : container -> container.
Definition n_td (t : term_defs) : term_defs :=
  TermDefs (n_loc cv (td_term t)) (n_loc (map (n_loc cv)) (td_defs t)).
Definition n_header (h : header) : header := Header (n_cont (h_content h)) (h_level h) (h_centered h).
Definition n_cell (c : cell) : cell :=
  match c with CContent x => CContent (n_cont x) | _ => c end.
Definition n_table (t : table) : table :=
  Table (by_key pos_leb (map (fun kv => (fst kv, n_loc n_cell (snd kv))) (t_cells t)))
    (t_row_cnt t) (t_col_cnt t) (t_centered t).
Fixpoint n_block (b : block) : block :=
  match b with
  | BDefList d => BDefList (map (n_loc n_td) d)
  | BHeader h => BHeader (n_header h)
  | BList items => BList (map (n_loc n_item) items)
  | BParagraph ls => BParagraph (map n_cont ls)
  | BCode c => BCode (CodeBlock (cb_lang c) (n_map (cb_meta c)) (cb_lines c))
  | BTable t => BTable (n_table t)
  | _ => b
  end
with n_item (i : list_item) : list_item :=
  match i with ListItem t s p c d => ListItem t s p (map (n_loc n_block) c) d end.
Definition n_page (p : page) : page := map (n_loc n_block) p.
End Norm.

(** Without regions; the values of definition lists count by their text. *)
Definition nowhere (_ : region) : region := Region 0 0 0.
Definition as_text (c : container) : container := [Loc (IText (container_display c)) (nowhere (Region 0 0 0))].
Definition content_of (cu : uri -> uri) (p : page) : page := n_page cu nowhere as_text p.
(** Without regions, but with the values of definition lists like other text. *)
Definition full_content_of (cu : uri -> uri) (p : page) : page := n_page cu nowhere (n_cont cu nowhere) p.
(** With regions; the values of definition lists count like other text. *)
Definition located_content_of (cu : uri -> uri) (p : page) : page :=
  n_page cu (fun r => r) (n_cont cu (fun r => r)) p.

(** [cu] describes an equality of URIs. *)
Definition describes (uri_eqb : uri -> uri -> bool) (cu : uri -> uri) : Prop :=
  forall u v, uri_eqb u v = true <-> cu u = cu v.

(** * Values of the Rust types *)

(** The maps of links, code blocks and tables are maps; the counts of a table
    are those that [Table::new] computes. *)
Section All.
Context {A : Type}.
Variable P : A -> Prop.
Fixpoint all (l : list A) : Prop := match l with [] => True | x :: l' => P x /\ all l' end.
End All.
Definition keyed {K V} (m : list (K * V)) : Prop := NoDup (map fst m).
Fixpoint ok_desc (d : description) : Prop :=
  match d with DescText _ => True | DescTransclusion x => ok_data x end
with ok_data (x : link_data) : Prop :=
  match x with
  | LinkData _ d p =>
      match d with Some y => ok_desc y | None => True end /\ match p with Some m => keyed m | None => True end
  end.
Definition ok_link (l : link) : Prop := ok_data (link_get_data l).
Fixpoint ok_dc (c : dcontent) : Prop :=
  match c with
  | DCDeco _ cs => all (fun x => ok_dc (l_val x)) cs
  | DCLink l => ok_link l
  | _ => True
  end.
Definition ok_inline (i : inline) : Prop :=
  match i with
  | IDeco _ cs => all (fun x => ok_dc (l_val x)) cs
  | ILink l => ok_link l
  | _ => True
  end.
Definition ok_cont (c : container) : Prop := all (fun x => ok_inline (l_val x)) c.
Definition ok_td (t : term_defs) : Prop :=
  ok_cont (l_val (td_term t)) /\ all (fun x => ok_cont (l_val x)) (l_val (td_defs t)).
Definition ok_cell (c : cell) : Prop := match c with CContent x => ok_cont x | _ => True end.
Definition counted (t : table) : Prop :=
  (forall n, t_row_cnt t <= n <-> forall k x, In (k, x) (t_cells t) -> cp_row k < n) /\
  (forall n, t_col_cnt t <= n <-> forall k x, In (k, x) (t_cells t) -> cp_col k < n).
Definition ok_table (t : table) : Prop :=
  keyed (t_cells t) /\ counted t /\ all (fun kv => ok_cell (l_val (snd kv))) (t_cells t).
Fixpoint ok_block (b : block) : Prop :=
  match b with
  | BDefList d => all (fun x => ok_td (l_val x)) d
  | BHeader h => ok_cont (h_content h)
  | BList items => all (fun x => ok_item (l_val x)) items
  | BParagraph ls => all ok_cont ls
  | BCode c => keyed (cb_meta c)
  | BTable t => ok_table t
  | _ => True
  end
with ok_item (i : list_item) : Prop :=
  match i with ListItem _ _ _ c _ => all (fun x => ok_block (l_val x)) c end.
Definition ok_page (p : page) : Prop := all (fun x => ok_block (l_val x)) p.

(** [P] holds of the values of the definition lists of a page. *)
Section Values.
Variable P : container -> Prop.
Definition td_values (t : term_defs) : Prop :=
  P (l_val (td_term t)) /\ all (fun x => P (l_val x)) (l_val (td_defs t)).
Fixpoint values (b : block) : Prop :=
  match b with
  | BDefList d => all (fun x => td_values (l_val x)) d
  | BList items => all (fun x => item_values (l_val x)) items
  | _ => True
  end
with item_values (i : list_item) : Prop :=
  match i with ListItem _ _ _ c _ => all (fun x => values (l_val x)) c end.
Definition page_values (p : page) : Prop := all (fun x => values (l_val x)) p.
End Values.
(** Text without links. *)
Fixpoint dc_linkless (c : dcontent) : Prop :=
  match c with
  | DCDeco _ cs => all (fun x => dc_linkless (l_val x)) cs
  | DCLink _ => False
  | _ => True
  end.
Definition linkless (c : container) : Prop :=
  all (fun x => match l_val x with
                | IDeco _ cs => all (fun y => dc_linkless (l_val y)) cs
                | ILink _ => False
                | _ => True
                end) c.

(** [P] holds of the properties of the links and of the attributes of the code
    blocks of a page. *)
Section Maps.
Variable P : list (str * str) -> Prop.
Fixpoint desc_maps (d : description) : Prop :=
  match d with DescText _ => True | DescTransclusion x => data_maps x end
with data_maps (x : link_data) : Prop :=
  match x with
  | LinkData _ d p =>
      match d with Some y => desc_maps y | None => True end /\ match p with Some m => P m | None => True end
  end.
Definition link_maps (l : link) : Prop := data_maps (link_get_data l).
Fixpoint dc_maps (c : dcontent) : Prop :=
  match c with
  | DCDeco _ cs => all (fun x => dc_maps (l_val x)) cs
  | DCLink l => link_maps l
  | _ => True
  end.
Definition inline_maps (i : inline) : Prop :=
  match i with
  | IDeco _ cs => all (fun x => dc_maps (l_val x)) cs
  | ILink l => link_maps l
  | _ => True
  end.
Definition cont_maps (c : container) : Prop := all (fun x => inline_maps (l_val x)) c.
Definition cell_maps (c : cell) : Prop := match c with CContent x => cont_maps x | _ => True end.
Fixpoint block_maps (b : block) : Prop :=
  match b with
  | BDefList d => all (fun x => td_values cont_maps (l_val x)) d
  | BHeader h => cont_maps (h_content h)
  | BList items => all (fun x => item_maps (l_val x)) items
  | BParagraph ls => all cont_maps ls
  | BCode c => P (cb_meta c)
  | BTable t => all (fun kv => cell_maps (l_val (snd kv))) (t_cells t)
  | _ => True
  end
with item_maps (i : list_item) : Prop :=
  match i with ListItem _ _ _ c _ => all (fun x => block_maps (l_val x)) c end.
Definition page_maps (p : page) : Prop := all (fun x => block_maps (l_val x)) p.
End Maps.
