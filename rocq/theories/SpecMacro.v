(** What the macros of vimwiki_macros promise, said without the functions of
    ModelMacro.v. *)
From Verif Require Import Base ModelSpan ModelAst ModelLink ModelElem SpecTree SpecVw SpecEq.
Local Open Scope nat_scope.

(** * Lines of a literal *)

(** A line: its leading blanks (spaces and tabs) and the rest, which does not
    begin with white space and does not reach into another line. *)
Record src_line := SrcLine { sl_blanks : str; sl_rest : str }.
Definition line_text (l : src_line) : str := sl_blanks l ++ sl_rest l.
Definition blanks (w : str) : Prop := Forall (fun b => b = x20 \/ b = x09) w.
Definition line_ok (l : src_line) : Prop :=
  blanks (sl_blanks l) /\ valid_utf8 (sl_rest l) /\ ~ starts_white (sl_rest l) /\
  ~ In x0a (sl_rest l) /\ ~ In x0d (sl_rest l).
Definition has_content (l : src_line) : Prop := sl_rest l <> [].
(** [m] is the least indentation of the lines. *)
Definition least_indent (ls : list src_line) (m : nat) : Prop :=
  (forall l, In l ls -> m <= length (sl_blanks l)) /\ (exists l, In l ls /\ m = length (sl_blanks l)).
Definition cut (m : nat) (l : src_line) : str := skipn m (sl_blanks l) ++ sl_rest l.
(** [before] and [after] are blank, the lines between begin and end with
    content. *)
Definition laid_out (before mid after : list src_line) : Prop :=
  Forall line_ok (before ++ mid ++ after) /\
  Forall (fun l => sl_rest l = []) before /\ Forall (fun l => sl_rest l = []) after /\
  (exists a r, mid = a :: r /\ has_content a) /\ (exists a r, mid = r ++ [a] /\ has_content a).
Definition text_of (ls : list src_line) : str := join [x0a] (map line_text ls).

(** * Literals *)

(** The forms of a string literal: what is before the opening and after the
    closing quotation mark. *)
Inductive literal_form : str -> str -> Prop :=
| LfPlain : literal_form [] []
| LfRaw n : literal_form (x72 :: repeat x23 n) (repeat x23 n)
| LfByte : literal_form [x62] []
| LfRawByte n : literal_form (x62 :: x72 :: repeat x23 n) (repeat x23 n).
Definition literal (pre s post : str) : str := pre ++ [x22] ++ s ++ [x22] ++ post.

(** The value of a plain literal with the simple escapes. *)
Fixpoint unescaped (l : str) : str :=
  match l with
  | x5c :: x6e :: l' => x0a :: unescaped l'
  | x5c :: x74 :: l' => x09 :: unescaped l'
  | x5c :: x22 :: l' => x22 :: unescaped l'
  | x5c :: x5c :: l' => x5c :: unescaped l'
  | b :: l' => b :: unescaped l'
  | [] => []
  end.

(** * Format strings *)

(** A format string, read: text, the next argument, an argument by position or
    by name, each possibly with a specification. *)
Inductive piece :=
| FText (t : str)
| FNext (spec : option str)
| FAt (p : N) (spec : option str)
| FNamed (n : str) (spec : option str).
Definition spec_src (sp : option str) : str := match sp with Some s => bs ":" ++ s | None => [] end.
Definition piece_src (p : piece) : str :=
  match p with
  | FText t => t
  | FNext sp => bs "{" ++ spec_src sp ++ bs "}"
  | FAt n sp => bs "{" ++ dec n ++ spec_src sp ++ bs "}"
  | FNamed n sp => bs "{" ++ n ++ spec_src sp ++ bs "}"
  end.
Definition format_src (ps : list piece) : str := flat_map piece_src ps.
Definition no_braces (t : str) : Prop := ~ In x7b t /\ ~ In x7d t.
(** Names: letters, digits, underscores, not just an underscore. *)
Definition word_byte (b : byte) : Prop :=
  (97 <= byte_n b <= 122) \/ (65 <= byte_n b <= 90) \/ (48 <= byte_n b <= 57) \/ b = x5f.
Definition word (n : str) : Prop :=
  Forall word_byte n /\ n <> [x5f] /\ exists b r, n = b :: r /\ ~ (48 <= byte_n b <= 57).
(** A specification: no braces, no line feed, no reference to another argument
    and no white space at its end. *)
Definition spec_ok (sp : option str) : Prop :=
  match sp with
  | None => True
  | Some s => no_braces s /\ ~ In x0a s /\ ~ In x24 s /\ ~ ends_white s
  end.
Definition piece_ok (p : piece) : Prop :=
  match p with
  | FText t => no_braces t
  | FNext sp => spec_ok sp
  | FAt n sp => (n < usize_bound)%N /\ spec_ok sp
  | FNamed n sp => word n /\ spec_ok sp
  end.

Section Fill.
Context {V : Type}.
Variable args : list V.
Variable names : list (str * V).
Variable show : V -> str -> option str.

Definition shown (v : option V) (sp : option str) : option str :=
  match v with Some x => show x (match sp with Some s => s | None => [] end) | None => None end.
(** The first argument of the name. *)
Fixpoint lookup (l : list (str * V)) (n : str) : option V :=
  match l with
  | [] => None
  | (k, v) :: l' => if str_eqb k n then Some v else lookup l' n
  end.
Definition glue (a b : option str) : option str :=
  match a, b with Some x, Some y => Some (x ++ y) | _, _ => None end.
(** How many arguments are taken in order. *)
Fixpoint nexts (ps : list piece) : N :=
  match ps with
  | [] => 0%N
  | FNext _ :: ps' => (1 + nexts ps')%N
  | _ :: ps' => nexts ps'
  end.
(** The text, every argument in its place; [c] arguments were taken before. *)
Fixpoint fill (c : N) (ps : list piece) : option str :=
  match ps with
  | [] => Some []
  | FText t :: ps' => glue (Some t) (fill c ps')
  | FNext sp :: ps' => glue (shown (nth_error args (N.to_nat c)) sp) (fill (c + 1) ps')
  | FAt n sp :: ps' => glue (shown (nth_error args (N.to_nat n)) sp) (fill c ps')
  | FNamed n sp :: ps' => glue (shown (lookup names n) sp) (fill c ps')
  end.
(** Several texts one after the other. *)
Fixpoint fill_all (c : N) (pss : list (list piece)) : option (list str) :=
  match pss with
  | [] => Some []
  | ps :: pss' =>
      match fill c ps, fill_all (c + nexts ps) pss' with
      | Some t, Some ts => Some (t :: ts)
      | _, _ => None
      end
  end.
End Fill.

(** * The texts of a page *)

(** A page with its texts and regions changed. *)
Section Change.
Variable ft : str -> str.
Variable fr : region -> region.
Definition m_loc {A} (f : A -> A) (x : located A) : located A := Loc (f (l_val x)) (fr (l_reg x)).
Definition m_map (m : list (str * str)) : list (str * str) := map (fun kv => (ft (fst kv), ft (snd kv))) m.
Fixpoint m_desc (d : description) : description :=
  match d with
  | DescText t => DescText (ft t)
  | DescTransclusion x => DescTransclusion (m_data x)
  end
with m_data (x : link_data) : link_data :=
  match x with
  | LinkData u d p =>
      LinkData u (match d with Some y => Some (m_desc y) | None => None end) (option_map m_map p)
  end.
Definition m_link (l : link) : link :=
  match l with
  | LWiki d => LWiki (m_data d)
  | LIndexed i d => LIndexed i (m_data d)
  | LNamed n d => LNamed (ft n) (m_data d)
  | LDiary t d => LDiary t (m_data d)
  | LRaw d => LRaw (m_data d)
  | LTransclusion d => LTransclusion (m_data d)
  end.
Fixpoint m_dc (c : dcontent) : dcontent :=
  match c with
  | DCText t => DCText (ft t)
  | DCDeco k cs => DCDeco k (map (m_loc m_dc) cs)
  | DCKeyword k => DCKeyword k
  | DCLink l => DCLink (m_link l)
  end.
Definition m_inline (i : inline) : inline :=
  match i with
  | IText t => IText (ft t)
  | IDeco k cs => IDeco k (map (m_loc m_dc) cs)
  | IKeyword k => IKeyword k
  | ILink l => ILink (m_link l)
  | ITags ts => ITags (map ft ts)
  | ICode t => ICode (ft t)
  | IMath t => IMath (ft t)
  | IComment (CLine t) => IComment (CLine (ft t))
  | IComment (CMulti ls) => IComment (CMulti (map ft ls))
  end.
Definition m_cont (c : container) : container := map (m_loc m_inline) c.
Definition m_td (t : term_defs) : term_defs :=
  TermDefs (m_loc m_cont (td_term t)) (m_loc (map (m_loc m_cont)) (td_defs t)).
Definition m_cell (c : cell) : cell := match c with CContent x => CContent (m_cont x) | _ => c end.
Definition m_table (t : table) : table :=
  Table (map (fun kv => (fst kv, m_loc m_cell (snd kv))) (t_cells t)) (t_row_cnt t) (t_col_cnt t) (t_centered t).
Definition m_item_ty (t : item_ty) : item_ty :=
  match t with TUnordered (UOther p) => TUnordered (UOther (ft p)) | _ => t end.
Definition m_placeholder (p : placeholder) : placeholder :=
  match p with
  | PTitle t => PTitle (ft t)
  | PTemplate t => PTemplate (ft t)
  | POther n v => POther (ft n) (ft v)
  | _ => p
  end.
Fixpoint m_block (b : block) : block :=
  match b with
  | BBlockquote ls => BBlockquote (map ft ls)
  | BDefList d => BDefList (map (m_loc m_td) d)
  | BDivider => BDivider
  | BHeader h => BHeader (Header (m_cont (h_content h)) (h_level h) (h_centered h))
  | BList items => BList (map (m_loc m_item) items)
  | BMath m => BMath (MathBlock (map ft (mb_lines m)) (option_map ft (mb_env m)))
  | BParagraph ls => BParagraph (map m_cont ls)
  | BPlaceholder p => BPlaceholder (m_placeholder p)
  | BCode c => BCode (CodeBlock (option_map ft (cb_lang c)) (m_map (cb_meta c)) (map ft (cb_lines c)))
  | BTable t => BTable (m_table t)
  end
with m_item (i : list_item) : list_item :=
  match i with ListItem ty suf pos cs todo => ListItem (m_item_ty ty) suf pos (map (m_loc m_block) cs) todo end.
Definition m_page (p : page) : page := map (m_loc m_block) p.
End Change.

(** Regions keep where they are and how long, not how deep. *)
Definition shallow (r : region) : region := Region (r_off r) (r_len r) 0.
Definition flat (p : page) : page := m_page (fun t => t) shallow p.
(** What is left of a page without its texts. *)
Definition frame (p : page) : page := m_page (fun _ => []) shallow p.

(** The texts that may hold placeholders, in the order of the document: not
    those of URIs and dates. *)
Definition opt_texts (o : option str) : list str := match o with Some t => [t] | None => [] end.
Definition map_texts (m : list (str * str)) : list str := flat_map (fun kv => [fst kv; snd kv]) m.
Fixpoint desc_texts (d : description) : list str :=
  match d with DescText t => [t] | DescTransclusion x => data_texts x end
with data_texts (x : link_data) : list str :=
  match x with
  | LinkData _ d p =>
      match d with Some y => desc_texts y | None => [] end ++
      match p with Some m => map_texts m | None => [] end
  end.
Definition link_texts (l : link) : list str :=
  match l with
  | LNamed n d => n :: data_texts d
  | _ => data_texts (link_get_data l)
  end.
Fixpoint dc_texts (c : dcontent) : list str :=
  match c with
  | DCText t => [t]
  | DCDeco _ cs => flat_map (fun x => dc_texts (l_val x)) cs
  | DCKeyword _ => []
  | DCLink l => link_texts l
  end.
Definition inline_texts (i : inline) : list str :=
  match i with
  | IText t | ICode t | IMath t | IComment (CLine t) => [t]
  | IDeco _ cs => flat_map (fun x => dc_texts (l_val x)) cs
  | IKeyword _ => []
  | ILink l => link_texts l
  | ITags ts | IComment (CMulti ts) => ts
  end.
Definition cont_texts (c : container) : list str := flat_map (fun x => inline_texts (l_val x)) c.
Definition td_texts (t : term_defs) : list str :=
  cont_texts (l_val (td_term t)) ++ flat_map (fun x => cont_texts (l_val x)) (l_val (td_defs t)).
Definition cell_texts (c : cell) : list str := match c with CContent x => cont_texts x | _ => [] end.
Definition placeholder_texts (p : placeholder) : list str :=
  match p with
  | PTitle t | PTemplate t => [t]
  | POther n v => [n; v]
  | _ => []
  end.
Fixpoint block_texts (b : block) : list str :=
  match b with
  | BBlockquote ls => ls
  | BDefList d => flat_map (fun x => td_texts (l_val x)) d
  | BDivider => []
  | BHeader h => cont_texts (h_content h)
  | BList items => flat_map (fun x => item_texts (l_val x)) items
  | BMath m => opt_texts (mb_env m) ++ mb_lines m
  | BParagraph ls => flat_map cont_texts ls
  | BPlaceholder p => placeholder_texts p
  | BCode c => opt_texts (cb_lang c) ++ map_texts (cb_meta c) ++ cb_lines c
  | BTable t => flat_map (fun kv => cell_texts (l_val (snd kv))) (t_cells t)
  end
with item_texts (i : list_item) : list str :=
  match i with
  | ListItem ty _ _ cs _ =>
      match ty with TUnordered (UOther p) => [p] | _ => [] end ++ flat_map (fun x => block_texts (l_val x)) cs
  end.
Definition page_texts (p : page) : list str := flat_map (fun x => block_texts (l_val x)) p.

(** [P] holds of the URIs of a page. *)
Section Uris.
Variable P : uri -> Prop.
Fixpoint desc_uris (d : description) : Prop :=
  match d with DescText _ => True | DescTransclusion x => data_uris x end
with data_uris (x : link_data) : Prop :=
  match x with LinkData u d _ => P u /\ match d with Some y => desc_uris y | None => True end end.
Definition link_uris (l : link) : Prop := data_uris (link_get_data l).
Fixpoint dc_uris (c : dcontent) : Prop :=
  match c with
  | DCDeco _ cs => all (fun x => dc_uris (l_val x)) cs
  | DCLink l => link_uris l
  | _ => True
  end.
Definition inline_uris (i : inline) : Prop :=
  match i with
  | IDeco _ cs => all (fun x => dc_uris (l_val x)) cs
  | ILink l => link_uris l
  | _ => True
  end.
Definition cont_uris (c : container) : Prop := all (fun x => inline_uris (l_val x)) c.
Definition cell_uris (c : cell) : Prop := match c with CContent x => cont_uris x | _ => True end.
Fixpoint block_uris (b : block) : Prop :=
  match b with
  | BDefList d => all (fun x => td_values cont_uris (l_val x)) d
  | BHeader h => cont_uris (h_content h)
  | BList items => all (fun x => item_uris (l_val x)) items
  | BParagraph ls => all cont_uris ls
  | BTable t => all (fun kv => cell_uris (l_val (snd kv))) (t_cells t)
  | _ => True
  end
with item_uris (i : list_item) : Prop :=
  match i with ListItem _ _ _ c _ => all (fun x => block_uris (l_val x)) c end.
Definition page_uris (p : page) : Prop := all (fun x => block_uris (l_val x)) p.
End Uris.
(** A URI that is read back from its text. *)
Definition prints_back (uri_parse : str -> option uri) (u : uri) : Prop :=
  uri_parse (uri_display u) = Some u.
(** The keys of link properties and code block attributes hold no braces. *)
Definition plain_keys (p : page) : Prop :=
  page_maps (fun m => Forall (fun kv => no_braces (fst kv)) m) p.
