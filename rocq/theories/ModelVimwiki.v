(** Vimwiki output: model of /repo/vimwiki-core/src/lang/output/vimwiki/{mod,
    formatter,config,convert}.rs.

    Writing to a [String] cannot fail, so the only outcomes are a new
    formatter state and a panic.  A [write!] with several pieces is a sequence
    of [write_str], one for each piece; an argument whose [Display] writes
    several pieces (dates, URIs) is written as one piece, which gives the same
    result because [write_str] only depends on whether everything since the
    flag was set is white space. *)
From Verif Require Import Base ModelSpan ModelAst ModelTable ModelLink ModelBlock ModelElem.

(** * Configuration (config.rs) *)

Record vw_config := VwConfig {
  vc_indent : str;              (* page.indent_str *)
  vc_separate : bool;           (* page.separate_block_elements *)
  vc_bq_indented : bool;        (* blockquote.prefer_indented_blockquote *)
  vc_bq_trim : bool;            (* blockquote.trim_lines *)
  vc_com_nopad : bool;          (* comment.no_padding *)
  vc_com_trim : bool;           (* comment.trim_content *)
  vc_dl_alone : bool;           (* definition_list.term_on_line_by_itself *)
  vc_dl_trim_terms : bool;      (* definition_list.trim_terms *)
  vc_dl_trim_defs : bool;       (* definition_list.trim_definitions *)
  vc_h_nopad : bool;            (* header.no_padding *)
  vc_h_trim : bool;             (* header.trim_content *)
  vc_todo : todo_status -> str; (* list.todo: the six characters *)
  vc_par_trim : bool;           (* paragraph.trim_lines *)
  vc_tbl_nopad : bool           (* table.no_padding *)
}.
(** The [Default] implementations of config.rs.  paragraph.line_wrap_column
    and no_line_wrap are not used by the output. *)
Definition default_todo (t : todo_status) : str :=
  match t with
  | TodoIncomplete => bs " " | TodoPartial1 => bs "." | TodoPartial2 => bs "o"
  | TodoPartial3 => bs "O" | TodoComplete => bs "X" | TodoRejected => bs "-"
  end.
Definition default_vw : vw_config :=
  VwConfig (bs "    ") true false true false true false true true false true
           default_todo true false.

(** * The formatter (formatter.rs) *)

(** formatter.rs:7-21. *)
Record vst := Vst { v_content : str; v_indent : nat; v_skip : bool }.
Inductive vres := VOk (st : vst) | VPanic.
Definition vm := vst -> vres.
Definition vskip : vm := fun st => VOk st.
Definition vpanic : vm := fun _ => VPanic.
(** The [?] operator. *)
Definition vseq (a b : vm) : vm := fun st => match a st with VOk st1 => b st1 | VPanic => VPanic end.
Declare Scope vm_scope.
Notation "a ;; b" := (vseq a b) (at level 61, right associativity) : vm_scope.
Open Scope vm_scope.
Definition veach {A} (f : A -> vm) : list A -> vm :=
  fix go (l : list A) : vm :=
    match l with
    | [] => vskip
    | x :: l' => f x ;; go l'
    end.

(** formatter.rs:28-42 [write_str]. *)
Definition wr (s : str) : vm := fun st =>
  if v_skip st then
    let tmp := str_trim_start s in
    VOk (Vst (v_content st ++ tmp) (v_indent st)
             (match tmp with [] => true | _ => false end))
  else VOk (Vst (v_content st ++ s) (v_indent st) false).
(** [writeln!(f)]. *)
Definition wln : vm := wr [b_nl].

(** formatter.rs:65-75 [write_indent]. *)
Definition ends_with_nl (s : str) : bool :=
  match rev s with [] => false | b :: _ => is_nl b end.
Definition write_indent (indent_str : str) : vm := fun st =>
  match v_content st with
  | [] => veach wr (repeat indent_str (v_indent st)) st
  | c => if ends_with_nl c then veach wr (repeat indent_str (v_indent st)) st else VOk st
  end.

(** formatter.rs:80-88 [and_indent]. *)
Definition and_indent (f : vm) : vm := fun st =>
  match f (Vst (v_content st) (v_indent st + 1) (v_skip st)) with
  | VOk st1 => VOk (Vst (v_content st1) (v_indent st1 - 1) (v_skip st1))
  | VPanic => VPanic
  end.

(** formatter.rs:105-113 [skip_whitespace], 116-119 [trim_end], 93-100
    [and_trim]. *)
Definition skip_whitespace (f : vm) : vm := fun st =>
  match f (Vst (v_content st) (v_indent st) true) with
  | VOk st1 => VOk (Vst (v_content st1) (v_indent st1) false)
  | VPanic => VPanic
  end.
Definition trim_end : vm := fun st =>
  VOk (Vst (str_trim_end (v_content st)) (v_indent st) (v_skip st)).
Definition and_trim (f : vm) : vm := skip_whitespace f ;; trim_end.

Definition trim_if (b : bool) (f : vm) : vm := if b then and_trim f else f.
Definition wr_if (b : bool) (s : str) : vm := if b then wr s else vskip.

(** [sort_by] on keys ([str::cmp] compares bytes); stable. *)
Fixpoint str_leb (a b : str) : bool :=
  match a, b with
  | [], _ => true
  | _ :: _, [] => false
  | x :: a', y :: b' =>
      if (byte_n x <? byte_n y) then true
      else if (byte_n y <? byte_n x) then false
      else str_leb a' b'
  end.
Fixpoint insert_pair (p : str * str) (l : list (str * str)) : list (str * str) :=
  match l with
  | [] => [p]
  | q :: l' => if str_leb (fst p) (fst q) then p :: q :: l' else q :: insert_pair p l'
  end.
Definition sort_pairs (l : list (str * str)) : list (str * str) := fold_right insert_pair [] l.

Section Vimwiki.
Variable cfg : vw_config.
(** [format!("{:x}", Roman::from(n))] of the external crate numerals. *)
Variable roman : bool -> Z -> str.
(** [String::from_utf8_lossy], used by [decode_uri] (data.rs:100-102). *)
Variable lossy : str -> str.

Local Notation indent := (write_indent (vc_indent cfg)).

(** * Inline elements (mod.rs:545-847) *)

(** data.rs:197-199 [to_decoded_uri_string]. *)
Definition decoded_uri (d : link_data) : str := lossy (percent_decode (uri_display (ld_uri d))).

(** [key="value"] pairs separated by single spaces (mod.rs:342-349, 732-741). *)
Fixpoint pairs_vw (first : bool) (l : list (str * str)) : vm :=
  match l with
  | [] => vskip
  | (k, v) :: l' =>
      wr_if (negb first) (bs " ")
      ;; wr k ;; wr [x3d; x22] ;; wr v ;; wr [x22]
      ;; pairs_vw false l'
  end.

(** mod.rs:702-744: [Link::Transclusion]. *)
Fixpoint desc_vw (d : description) : vm :=
  match d with
  | DescText t => wr (bs "|") ;; wr t
  | DescTransclusion x => wr (bs "|") ;; transclusion_vw x
  end
with transclusion_vw (d : link_data) : vm :=
  match d with
  | LinkData u desc props =>
      wr (bs "{{")
      ;; wr (lossy (percent_decode (uri_display u)))
      ;; match desc with Some x => desc_vw x | None => vskip end
      ;; match props with
         | None => vskip
         | Some ps =>
             wr_if (match desc with None => true | Some _ => false end) (bs "|")
             ;; wr (bs "|")
             ;; pairs_vw true (sort_pairs ps)
         end
      ;; wr (bs "}}")
  end.
Definition opt_desc_vw (d : option description) : vm :=
  match d with Some x => desc_vw x | None => vskip end.

(** mod.rs:639-701. *)
Definition link_vw (l : link) : vm :=
  match l with
  | LWiki d =>
      wr (bs "[[") ;; wr (decoded_uri d) ;; opt_desc_vw (ld_desc d) ;; wr (bs "]]")
  | LIndexed i d =>
      wr (bs "[[") ;; wr (bs "wiki") ;; wr (dec i) ;; wr (bs ":")
      ;; wr (decoded_uri d) ;; opt_desc_vw (ld_desc d) ;; wr (bs "]]")
  | LNamed n d =>
      wr (bs "[[") ;; wr (bs "wn.") ;; wr n ;; wr (bs ":")
      ;; wr (decoded_uri d) ;; opt_desc_vw (ld_desc d) ;; wr (bs "]]")
  | LDiary dt d =>
      wr (bs "[[diary:") ;; wr (date_display dt)
      ;; match to_anchor d with Some a => wr (anchor_display a) | None => vskip end
      ;; opt_desc_vw (ld_desc d) ;; wr (bs "]]")
  | LRaw d => wr (uri_display (ld_uri d))
  | LTransclusion d => transclusion_vw d
  end.

(** mod.rs:577-619: the marker written before and after decorated text. *)
Definition deco_mark (k : deco) : str :=
  match k with
  | Bold => bs "*" | Italic => bs "_" | Strikeout => bs "~~"
  | Superscript => bs "^" | Subscript => bs ",,"
  end.
(** mod.rs:621-637. *)
Fixpoint dcontent_vw (c : dcontent) : vm :=
  match c with
  | DCText t => wr t
  | DCDeco k cs =>
      wr (deco_mark k) ;; veach (fun x => dcontent_vw (l_val x)) cs ;; wr (deco_mark k)
  | DCKeyword k => wr (keyword_display k)
  | DCLink l => link_vw l
  end.

(** mod.rs:777-847. *)
Definition comment_vw (c : comment) : vm :=
  match c with
  | CLine t =>
      wr (bs "%%") ;; wr_if (negb (vc_com_nopad cfg)) (bs " ")
      ;; wr (if vc_com_trim cfg then str_trim t else t)
  | CMulti ls =>
      wr (bs "%%+") ;; wr_if (negb (vc_com_nopad cfg)) (bs " ")
      ;; (fix go (l : list str) : vm :=
            match l with
            | [] => vskip
            | x :: l' =>
                wr (if vc_com_trim cfg then str_trim x else x)
                ;; match l' with [] => vskip | _ => wln end
                ;; go l'
            end) ls
      ;; wr_if (negb (vc_com_nopad cfg)) (bs " ") ;; wr (bs "+%%")
  end.

(** mod.rs:545-575, 751-775. *)
Definition inline_vw (i : inline) : vm :=
  match i with
  | IText t => wr t
  | IDeco k cs => dcontent_vw (DCDeco k cs)
  | IKeyword k => wr (keyword_display k)
  | ILink l => link_vw l
  | ITags ts => wr (bs ":") ;; veach (fun t => wr t ;; wr (bs ":")) ts
  | ICode t => wr (bs "`") ;; wr t ;; wr (bs "`")
  | IMath t => wr (bs "$") ;; wr t ;; wr (bs "$")
  | IComment c => comment_vw c
  end.
Definition container_vw (c : container) : vm := veach (fun x => inline_vw (l_val x)) c.

(** * Blocks (mod.rs:77-390) *)

(** mod.rs:77-109. *)
Definition blockquote_vw (ls : list str) : vm :=
  veach (fun l =>
    indent ;; wr (if vc_bq_indented cfg then bs "    " else bs "> ")
    ;; trim_if (vc_bq_trim cfg) (wr l) ;; wln) ls.

(** mod.rs:111-156. *)
Fixpoint defs_vw (first : bool) (ds : list (located container)) : vm :=
  match ds with
  | [] => vskip
  | d :: ds' =>
      (if first && negb (vc_dl_alone cfg) then wr (bs " ") else (indent ;; wr (bs ":: ")))
      ;; trim_if (vc_dl_trim_defs cfg) (container_vw (l_val d)) ;; wln
      ;; defs_vw false ds'
  end.
Definition deflist_vw (d : def_list) : vm :=
  veach (fun x =>
    indent
    ;; trim_if (vc_dl_trim_terms cfg) (container_vw (l_val (td_term (l_val x))))
    ;; wr (bs "::")
    ;; (if vc_dl_alone cfg || match l_val (td_defs (l_val x)) with [] => true | _ => false end
        then wln else vskip)
    ;; defs_vw true (l_val (td_defs (l_val x)))) d.

(** mod.rs:165-210. *)
Definition header_vw (h : header) : vm :=
  wr_if (h_centered h) (bs "    ")
  ;; veach wr (repeat (bs "=") (h_level h))
  ;; wr_if (negb (vc_h_nopad cfg)) (bs " ")
  ;; trim_if (vc_h_trim cfg) (container_vw (h_content h))
  ;; wr_if (negb (vc_h_nopad cfg)) (bs " ")
  ;; veach wr (repeat (bs "=") (h_level h))
  ;; wln.

(** mod.rs:282-307. *)
Definition math_vw (m : math_block) : vm :=
  indent ;; wr (bs "{{$")
  ;; match mb_env m with Some e => wr (bs "%" ++ e ++ bs "%") | None => vskip end ;; wln
  ;; veach (fun l => indent ;; wr l ;; wln) (mb_lines m)
  ;; indent ;; wr (bs "}}$") ;; wln.

(** mod.rs:309-321. *)
Definition placeholder_vw (p : placeholder) : vm :=
  match p with
  | PTitle t => wr (bs "%title ") ;; wr t
  | PDate d => wr (bs "%date ") ;; wr (date_display d)
  | PTemplate t => wr (bs "%template ") ;; wr t
  | PNoHtml => wr (bs "%nohtml")
  | POther n v => wr (bs "%") ;; wr n ;; wr (bs " ") ;; wr v
  end ;; wln.

(** mod.rs:323-365. *)
Definition code_vw (c : code_block) : vm :=
  indent ;; wr (bs "{{{")
  ;; match cb_lang c with Some l => wr l | None => vskip end
  ;; pairs_vw (match cb_lang c with Some _ => false | None => true end)
              (sort_pairs (cb_meta c))
  ;; wln
  ;; veach (fun l => indent ;; wr l ;; wln) (cb_lines c)
  ;; indent ;; wr (bs "}}}") ;; wln.

(** mod.rs:367-390. *)
Definition paragraph_vw (ls : list container) : vm :=
  veach (fun l => indent ;; trim_if (vc_par_trim cfg) (container_vw l) ;; wln) ls.

(** * Tables (mod.rs:392-543) *)

(** [self.cells().zip_with_position()] (tables.rs:494-518, 984-1012): the
    cells of [cells_run] with their positions. *)
Fixpoint cells_pos_run (fuel : nat) (t : table) (p : nat * nat) : list (cellpos * located cell) :=
  match fuel with
  | 0 => []
  | S f => match cells_step t p with
           | (Some c, p') => (CellPos (fst p) (snd p), c) :: cells_pos_run f t p'
           | (None, _) => []
           end
  end.
Definition cells_pos (t : table) : list (cellpos * located cell) :=
  cells_pos_run (S (t_row_cnt t * t_col_cnt t)) t (0, 0).

(** mod.rs:419-448: padding of a cell's text. *)
Definition pad_cell (s : str) : str :=
  if vc_tbl_nopad cfg then s
  else match s with
       | [] => bs " "
       | _ =>
           let l := length (str_trim_start s) <? length s in
           let r := length (str_trim_end s) <? length s in
           (if l then [] else bs " ") ++ s ++ (if r then [] else bs " ")
       end.

(** mod.rs:398-455: text of the content and span cells; [None] is a panic
    while formatting a cell. *)
Definition cell_text (st : vst) (c : cell) : option (option str) :=
  match c with
  | CContent x =>
      match container_vw x (Vst [] (v_indent st) (v_skip st)) with
      | VOk st1 => Some (Some (pad_cell (v_content st1)))
      | VPanic => None
      end
  | CSpan FromLeft => Some (Some (pad_cell (bs ">")))
  | CSpan FromAbove => Some (Some (pad_cell (bs "\/")))
  | CAlign _ => Some None
  end.
Fixpoint fixed_cells (st : vst) (l : list (cellpos * located cell)) : option (list (cellpos * str)) :=
  match l with
  | [] => Some []
  | (p, c) :: l' =>
      match cell_text st (l_val c), fixed_cells st l' with
      | Some (Some s), Some m => Some ((p, s) :: m)
      | Some None, Some m => Some m
      | _, _ => None
      end
  end.
Fixpoint fixed_get (p : cellpos) (m : list (cellpos * str)) : option str :=
  match m with
  | [] => None
  | (q, s) :: m' => if cellpos_eqb p q then Some s else fixed_get p m'
  end.

(** mod.rs:457-488: the width of a column, 0 (the [unwrap_or_default] of
    line 505) when no fixed cell lies in it. *)
Definition min_align (c : cell) : nat :=
  match c with
  | CAlign AlNone => 1 | CAlign AlLeft => 2 | CAlign AlRight => 2 | CAlign AlCenter => 3
  | _ => 0
  end.
Definition column_size (t : table) (m : list (cellpos * str)) (c : nat) : nat :=
  match filter (fun e => cp_col (fst e) =? c) m with
  | [] => 0
  | es => Nat.max (list_max (map (fun e => length (snd e)) es))
                  (list_max (map (fun x => min_align (l_val x)) (column t c)))
  end.

(** mod.rs:519-533: [max_size - 1] and [max_size - 2] panic on underflow. *)
Definition align_vw (a : col_align) (size : nat) : vm :=
  match a with
  | AlNone => wr (repeat x2d size)
  | AlLeft => if size <? 1 then vpanic else wr (bs ":") ;; wr (repeat x2d (size - 1))
  | AlRight => if size <? 1 then vpanic else wr (repeat x2d (size - 1)) ;; wr (bs ":")
  | AlCenter =>
      if size <? 2 then vpanic else wr (bs ":") ;; wr (repeat x2d (size - 2)) ;; wr (bs ":")
  end.
(** mod.rs:501-537. *)
Definition cell_vw (t : table) (m : list (cellpos * str)) (r c : nat) : vm :=
  let size := column_size t m c in
  match fixed_get (CellPos r c) m with
  | Some text => wr text ;; wr_if (length text <? size) (repeat b_sp (size - length text))
  | None =>
      match get_cell t r c with
      | Some (Loc (CAlign a) _) => align_vw a size
      | _ => wr (repeat b_sp size)
      end
  end
  ;; wr (bs "|").
(** mod.rs:490-539. *)
Definition table_vw (t : table) : vm := fun st =>
  match fixed_cells st (cells_pos t) with
  | None => VPanic
  | Some m =>
      veach (fun r =>
        indent ;; wr_if (t_centered t) (bs "    ") ;; wr (bs "|")
        ;; veach (cell_vw t m r) (seq 0 (t_col_cnt t)) ;; wln)
        (seq 0 (t_row_cnt t)) st
  end.

(** * Block elements and pages *)

(** mod.rs:60-75 [BlockElement], 158-163 [Divider], 212-249 [List],
    [ListItem], 251-280 [ListItemTodoStatus]. *)
Fixpoint block_vw (b : block) : vm :=
  match b with
  | BBlockquote ls => blockquote_vw ls
  | BDefList d => deflist_vw d
  | BDivider => wr (bs "----") ;; wln
  | BHeader h => header_vw h
  | BList items => veach (fun x => item_vw (l_val x)) items
  | BMath m => math_vw m
  | BParagraph ls => paragraph_vw ls
  | BPlaceholder p => placeholder_vw p
  | BCode c => code_vw c
  | BTable t => table_vw t
  end
with item_vw (i : list_item) : vm :=
  match i with
  | ListItem ty suf pos contents todo =>
      match contents with
      | [] => vskip
      | c :: cs =>
          (indent ;; wr (li_prefix roman (ListItem ty suf pos [] todo)) ;; wr (bs " ")
           ;; match todo with
              | Some t => wr (bs "[") ;; wr (vc_todo cfg t) ;; wr (bs "] ")
              | None => vskip
              end)
          ;; and_indent (block_vw (l_val c))
          ;; veach (fun x => and_indent (block_vw (l_val x))) cs
      end
  end.

(** mod.rs:19-38 [Page]. *)
Fixpoint page_vw (p : page) : vm :=
  match p with
  | [] => vskip
  | b :: p' =>
      block_vw (l_val b)
      ;; match p' with [] => vskip | _ => if vc_separate cfg then wln else vskip end
      ;; page_vw p'
  end.

(** convert.rs:10-20 [to_vimwiki_string]; [None] is a panic. *)
Definition run_vw (f : vm) : option str :=
  match f (Vst [] 0 false) with VOk st => Some (v_content st) | VPanic => None end.
Definition page_to_vimwiki (p : page) : option str := run_vw (page_vw p).
Definition block_to_vimwiki (b : block) : option str := run_vw (block_vw b).

End Vimwiki.
