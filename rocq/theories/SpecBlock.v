(** What the block elements of a parsed document must look like relative to
    the source text.  As in SpecDoc, no parser is mentioned. *)
From Verif Require Import Base ModelSpan ModelAst ModelLink SpecDoc.

(** The White_Space characters of Unicode, encoded in UTF-8. *)
Definition ws_chars : list str :=
  [[x09]; [x0a]; [x0b]; [x0c]; [x0d]; [x20]; [xc2; x85]; [xc2; xa0]; [xe1; x9a; x80];
   [xe2; x80; x80]; [xe2; x80; x81]; [xe2; x80; x82]; [xe2; x80; x83]; [xe2; x80; x84];
   [xe2; x80; x85]; [xe2; x80; x86]; [xe2; x80; x87]; [xe2; x80; x88]; [xe2; x80; x89];
   [xe2; x80; x8a]; [xe2; x80; xa8]; [xe2; x80; xa9]; [xe2; x80; xaf]; [xe2; x81; x9f];
   [xe3; x80; x80]].

(** [l'] is [l] without its leading white space, but at most [k] bytes of it. *)
Definition dedented (k : nat) (l l' : str) : Prop :=
  exists w, l = w ++ l' /\ length w <= k /\
    (exists more rest, l' = more ++ rest /\
       exists cs, Forall (fun c => In c ws_chars) cs /\ concat cs = w ++ more) /\
    (length w = k \/ forall c, In c ws_chars -> starts_with c l' = false).

(** A line that closes a fenced block. *)
Definition closing_line (fence l : str) : Prop :=
  exists a b, l = a ++ fence ++ b /\ blanks a /\ blanks b.

(** The lines between two fences: [body] is the lines with their terminators;
    none of them is a closing line. *)
Definition fenced_lines (fence body : str) (lines : list str) : Prop :=
  exists es : list str, length es = length lines /\
    body = concat (map (fun p => fst p ++ snd p) (combine lines es)) /\
    Forall (fun e => e = [b_nl] \/ e = [b_cr; b_nl]) es /\
    Forall (fun l => no_nl l /\ ~ closing_line fence l) lines.

(** Text made of blanks and line terminators only. *)
Definition ws_gap (inner : str) (lo hi : nat) : Prop :=
  Forall (fun b => is_space b = true \/ b = b_nl \/ b = b_cr) (slice lo hi inner).

(** Not starting / not ending with a blank. *)
Definition no_lead (l : str) : Prop := forall b r, l = b :: r -> is_space b = false.
Definition no_trail (l : str) : Prop := forall b r, l = r ++ [b] -> is_space b = false.

Definition is_nil {A} (l : list A) : bool := match l with [] => true | _ => false end.

(** * List item prefixes *)

Definition suffix_str (s : suffix) : str :=
  match s with SufNone => bs " " | SufPeriod => bs ". " | SufParen => bs ") " end.

Definition roman_lower : str := bs "ivxlcdm".
Definition roman_upper : str := bs "IVXLEDM".

Definition label_ok (o : ordered_ty) (l : str) : Prop :=
  l <> [] /\
  match o with
  | ONumber => Forall (fun b => is_digit b = true) l
  | OPound => l = bs "#"
  | OLowerRoman => Forall (fun b => In b roman_lower) l
  | OUpperRoman => Forall (fun b => In b roman_upper) l
  | OLowerAlpha => Forall (fun b => is_lower b = true) l /\
                   forall b r, l = b :: r -> ~ In b roman_lower
  | OUpperAlpha => Forall (fun b => is_upper b = true) l /\
                   forall b r, l = b :: r -> ~ In b roman_upper
  end.

Definition prefix_ok (t : item_ty) (s : suffix) (pre : str) : Prop :=
  match t with
  | TUnordered UHyphen => pre = bs "- " /\ s = SufNone
  | TUnordered UAsterisk => pre = bs "* " /\ s = SufNone
  | TUnordered (UOther _) => False
  | TOrdered o => exists l, pre = l ++ suffix_str s /\ label_ok o l /\
                            (o = OPound <-> s = SufNone)
  end.

Definition todo_str (t : option todo_status) : str :=
  match t with
  | None => []
  | Some TodoIncomplete => bs "[ ] "
  | Some TodoPartial1 => bs "[.] "
  | Some TodoPartial2 => bs "[o] "
  | Some TodoPartial3 => bs "[O] "
  | Some TodoComplete => bs "[X] "
  | Some TodoRejected => bs "[-] "
  end.

(** * Blockquotes *)

(** The lines of an indented blockquote between [lo] and [hi]. *)
Fixpoint indented_rows (inner : str) (lo : nat) (ls : list str) (hi : nat) : Prop :=
  match ls with
  | [] => lo = hi
  | t :: ls' => exists a e mid,
      slice lo mid inner = a ++ t ++ e /\ mid = lo + length (a ++ t ++ e) /\
      blanks a /\ 4 <= length a /\ no_nl t /\ no_lead t /\ eol_at inner mid e /\
      indented_rows inner mid ls' hi
  end.

(** A line of an arrow blockquote: a blank one or a quoted one. *)
Inductive qrow := QBlank (a e : str) | QLine (a t e : str).
Definition qrow_text (q : qrow) : str :=
  match q with QBlank a e => a ++ e | QLine a t e => a ++ bs "> " ++ t ++ e end.
Definition qrow_val (q : qrow) : str := match q with QBlank _ _ => [] | QLine _ t _ => t end.
Definition qrow_ok (inner : str) (hi : nat) (q : qrow) : Prop :=
  match q with
  | QBlank a e => blanks a /\ eol_at inner hi e
  | QLine a t e => blanks a /\ no_nl t /\ eol_at inner hi e
  end.
Definition is_qline (q : qrow) : Prop := match q with QLine _ _ _ => True | _ => False end.
Fixpoint arrow_rows (inner : str) (lo : nat) (rows : list qrow) (hi : nat) : Prop :=
  match rows with
  | [] => lo = hi
  | q :: rows' => exists mid,
      slice lo mid inner = qrow_text q /\ mid = lo + length (qrow_text q) /\
      qrow_ok inner mid q /\ arrow_rows inner mid rows' hi
  end.

Definition blockquote_ok (inner : str) (lo hi : nat) (ls : list str) : Prop :=
  (ls <> [] /\ indented_rows inner lo ls hi) \/
  (exists rows, arrow_rows inner lo rows hi /\ ls = map qrow_val rows /\
     (exists q r, rows = q :: r /\ is_qline q) /\ (exists q r, rows = r ++ [q] /\ is_qline q)).

(** * Code and math blocks *)

Definition math_text (inner : str) (hi : nat) (m : math_block) (t : str) : Prop :=
  exists a b c d fence body raw e,
    t = a ++ bs "{{$" ++ fence ++ b ++ e ++ body ++ c ++ bs "}}$" ++ d /\
    blanks a /\ blanks b /\ (e = [b_nl] \/ e = [b_cr; b_nl]) /\ blanks c /\
    (exists d1 d2, d = d1 ++ d2 /\ blanks d1 /\ eol_at inner hi d2) /\
    match mb_env m with
    | None => fence = []
    | Some v => fence = bs "%" ++ v ++ bs "%" /\ v <> [] /\ no_nl v /\ ~ In x25 v
    end /\
    fenced_lines (bs "}}$") body raw /\
    Forall2 (dedented (Nat.min (length a) (length c))) raw (mb_lines m).

(** The key-value pairs of a code fence, as written. *)
Definition meta_text (kv : str * str) : str :=
  fst kv ++ bs "=" ++ [x22] ++ snd kv ++ [x22].
Fixpoint meta_list (pairs : list (str * str)) (t : str) : Prop :=
  match pairs with
  | [] => t = []
  | [p] => t = meta_text p
  | p :: ps => exists sp t', t = meta_text p ++ sp ++ t' /\ blanks sp /\ sp <> [] /\ meta_list ps t'
  end.

(** The last binding of a key wins. *)
Definition last_binding (pairs : list (str * str)) (m : list (str * str)) : Prop :=
  NoDup (map fst m) /\
  forall k v, In (k, v) m <->
    exists a b, pairs = a ++ (k, v) :: b /\ ~ In k (map fst b).

Definition code_text (inner : str) (hi : nat) (c : code_block) (t : str) : Prop :=
  exists a lang b meta f pairs e body raw cl d,
    t = a ++ bs "{{{" ++ lang ++ b ++ meta ++ f ++ e ++ body ++ cl ++ bs "}}}" ++ d /\
    blanks a /\ blanks b /\ blanks f /\ (e = [b_nl] \/ e = [b_cr; b_nl]) /\ blanks cl /\
    (exists d1 d2, d = d1 ++ d2 /\ blanks d1 /\ eol_at inner hi d2) /\
    match cb_lang c with
    | None => lang = []
    | Some l => lang = l /\ l <> [] /\ no_nl l /\ ~ In x20 l /\ ~ In x3d l
    end /\
    meta_list pairs meta /\
    Forall (fun kv => fst kv <> [] /\ no_nl (fst kv) /\ ~ In x3d (fst kv) /\
                      no_nl (snd kv) /\ ~ In x22 (snd kv)) pairs /\
    last_binding pairs (cb_meta c) /\
    fenced_lines (bs "}}}") body raw /\
    Forall2 (dedented (Nat.min (length a) (length cl))) raw (cb_lines c).

(** * Placeholders *)

Section DocB.
Variable uri_parse : str -> option uri.
Variable date_parse : str -> option date.
Variable inner : str.
(** The offsets at which an element may begin or end. *)
Variable bd : nat -> Prop.

Local Notation text lo hi := (slice lo hi inner).
Local Notation cok := (container_ok uri_parse date_parse inner bd).

Definition placeholder_text_ok (p : placeholder) (t : str) : Prop :=
  match p with
  | PNoHtml => exists sp, t = bs "%nohtml" ++ sp /\ blanks sp
  | PTitle v =>
      exists sp, t = bs "%title" ++ sp ++ v /\ blanks sp /\ sp <> [] /\ no_nl v /\ no_lead v
  | PTemplate v =>
      exists sp, t = bs "%template" ++ sp ++ v /\ blanks sp /\ sp <> [] /\ no_nl v /\ no_lead v
  | PDate d =>
      exists sp v, t = bs "%date" ++ sp ++ v /\ blanks sp /\ sp <> [] /\ no_nl v /\ no_lead v /\
                   date_parse v = Some d
  | POther name v =>
      exists sp, t = bs "%" ++ name ++ sp ++ v /\ blanks sp /\ sp <> [] /\ no_nl v /\ no_lead v /\
        name <> [] /\ Forall (fun b => is_space b = false /\ b <> b_nl /\ b <> x25) name /\
        Forall (fun k => starts_with k name = false)
               [bs "title"; bs "nohtml"; bs "template"; bs "date"]
  end.

(** * Headers and dividers *)

Definition header_ok (d lo hi : nat) (h : header) : Prop :=
  bol inner lo /\ 1 <= h_level h <= 6 /\
  exists sp w1 c w2 f e,
    text lo hi = sp ++ repeat x3d (h_level h) ++ (w1 ++ c ++ w2)
                 ++ repeat x3d (h_level h) ++ f ++ e /\
    blanks sp /\ blanks w1 /\ blanks w2 /\ blanks f /\ eol_at inner hi e /\ no_nl c /\
    no_lead c /\ no_trail c /\
    (forall r, w1 ++ c ++ w2 <> x3d :: r) /\ (forall r, w1 ++ c ++ w2 <> r ++ [x3d]) /\
    h_centered h = negb (is_nil sp) /\
    (let o := lo + length sp + h_level h + length w1 in
     cok (S d) o (h_content h) (o + length c)).

Definition divider_ok (lo hi : nat) : Prop :=
  bol inner lo /\ exists n e, 4 <= n /\ text lo hi = repeat x2d n ++ e /\ eol_at inner hi e.

(** * Definition lists *)

(** A line "  :: definition" of depth [d]. *)
Definition def_line_ok (d lo hi : nat) (c : container) : Prop :=
  exists a b t e, text lo hi = a ++ bs "::" ++ b ++ t ++ e /\
    blanks a /\ blanks b /\ b <> [] /\ no_lead t /\ no_nl t /\ eol_at inner hi e /\
    (let o := lo + length a + 2 + length b in cok (S d) o c (o + length t)).

(** A definition that follows its term on the same line. *)
Definition def_inline_ok (d lo hi : nat) (c : container) : Prop :=
  exists b t, text lo hi = b ++ t /\ blanks b /\ b <> [] /\ no_lead t /\ no_nl t /\
    cok (S d) (lo + length b) c hi.

(** One item between [lo] and [hi].  The definitions are those on the term's
    line, if any, followed by those of the bundle's own region; the region of
    the item itself is the term's offset, the sum of both lengths and depth 0
    (this is what the code builds, see C05). *)
Definition term_defs_ok (d lo hi : nat) (x : located term_defs) : Prop :=
  let term := td_term (l_val x) in
  let bundle := td_defs (l_val x) in
  let tlo := r_off (l_reg term) in
  let thi := tlo + r_len (l_reg term) in
  let mid := r_off (l_reg bundle) in
  lo <= tlo /\ blanks (text lo tlo) /\ 2 < r_len (l_reg term) /\ r_depth (l_reg term) = d /\
  bd tlo /\ bd thi /\ bd mid /\ bd hi /\
  text (thi - 2) thi = bs "::" /\ cok (S d) tlo (l_val term) (thi - 2) /\
  no_nl (text tlo (thi - 2)) /\ absent (bs "::") (text tlo (thi - 2)) /\
  thi <= mid /\ r_depth (l_reg bundle) = d /\ mid + r_len (l_reg bundle) = hi /\
  l_val bundle <> [] /\
  ((exists first others,
      l_val bundle = first :: others /\
      r_off (l_reg first) = thi /\ r_depth (l_reg first) = d /\
      def_inline_ok d thi (thi + r_len (l_reg first)) (l_val first) /\
      thi + r_len (l_reg first) <= mid /\ bd (thi + r_len (l_reg first)) /\
      (exists e, text (thi + r_len (l_reg first)) mid = e /\ eol_at inner mid e) /\
      chain bd exact exact (def_line_ok d) d mid others hi) \/
   ((exists a e, text thi mid = a ++ e /\ blanks a /\ eol_at inner mid e) /\
    chain bd exact exact (def_line_ok d) d mid (l_val bundle) hi)) /\
  l_reg x = Region tlo (r_len (l_reg term) + r_len (l_reg bundle)) 0.

Fixpoint def_items_ok (d lo : nat) (l : list (located term_defs)) (hi : nat) : Prop :=
  match l with
  | [] => lo = hi
  | x :: l' => exists mid, lo < mid /\ term_defs_ok d lo mid x /\ def_items_ok d mid l' hi
  end.

(** * Tables *)

Definition align_ok (a : col_align) (t : str) : Prop :=
  exists n, 0 < n /\
    t = match a with AlLeft | AlCenter => bs ":" | _ => [] end ++ repeat x2d n ++
        match a with AlRight | AlCenter => bs ":" | _ => [] end.

Definition cell_ok (d lo hi : nat) (c : cell) : Prop :=
  match c with
  | CContent x => cok (S d) lo x hi /\ no_nl (text lo hi) /\ ~ In x7c (text lo hi)
  | CSpan FromAbove => exists a b, text lo hi = a ++ bs "\/" ++ b /\ blanks a /\ blanks b
  | CSpan FromLeft => exists a b, text lo hi = a ++ bs ">" ++ b /\ blanks a /\ blanks b
  | CAlign a => align_ok a (text lo hi)
  end.

(** A row: blanks, "|", cells separated by "|", "|", end of line. *)
Definition row_ok (d lo : nat) (r : str * list (located cell)) (hi : nat) : Prop :=
  blanks (fst r) /\ text lo (lo + length (fst r)) = fst r /\ snd r <> [] /\
  chain bd (fun a b => text a b = bs "|")
        (fun a b => a <= b /\ exists e, text a b = bs "|" ++ e /\ eol_at inner b e)
        (cell_ok d) d (lo + length (fst r)) (snd r) hi.

Fixpoint rows_ok (d lo : nat) (rs : list (str * list (located cell))) (hi : nat) : Prop :=
  match rs with
  | [] => lo = hi
  | r :: rs' => exists mid, lo < mid /\ row_ok d lo r mid /\ rows_ok d mid rs' hi
  end.

(** The stored cells are exactly those of the rows, keyed by position. *)
Definition cells_of (rs : list (str * list (located cell))) (m : list (cellpos * located cell)) : Prop :=
  NoDup (map fst m) /\
  forall r c x, In (CellPos r c, x) m <->
    exists row, nth_error rs r = Some row /\ nth_error (snd row) c = Some x.

Definition table_ok (nested : bool) (d lo hi : nat) (t : table) : Prop :=
  exists first rs, rows_ok (S d) lo (first :: rs) hi /\
    cells_of (first :: rs) (t_cells t) /\
    t_row_cnt t = length (first :: rs) /\
    t_col_cnt t = list_max (map (fun r => length (snd r)) (first :: rs)) /\
    t_centered t = negb nested && negb (is_nil (fst first)) /\
    (* some row is not a divider *)
    Exists (fun r => forall x l, snd r = x :: l ->
              match l_val x with CAlign _ => False | _ => True end) (first :: rs).

(** * Paragraphs *)

Fixpoint para_ok (d lo : nat) (ls : list container) (hi : nat) : Prop :=
  match ls with
  | [] => lo = hi
  | c :: ls' => exists a t e mid,
      text lo mid = a ++ t ++ e /\ mid = lo + length a + length t + length e /\
      blanks a /\ eol_at inner mid e /\ no_lead t /\
      cok (S d) (lo + length a) c (lo + length a + length t) /\
      para_ok d mid ls' hi
  end.

(** * Blocks *)

(** Some block starts at [o] with more than [k] blanks. *)
Definition indented_more (k o : nat) : Prop :=
  exists w, blanks w /\ k < length w /\ starts_with w (skipn o inner) = true.

(** A block of depth [d] whose region is [lo, hi); [top] at the top level of
    the page, where tables may be centered. *)
Fixpoint block_ok (top : bool) (d lo hi : nat) (b : block) {struct b} : Prop :=
  match b with
  | BHeader h => header_ok d lo hi h
  | BDivider => divider_ok lo hi
  | BPlaceholder p => bol inner lo /\ placeholder_text_ok p (text lo hi) /\ line_ends inner hi
  | BBlockquote ls => blockquote_ok inner lo hi ls
  | BMath m => math_text inner hi m (text lo hi)
  | BCode c => code_text inner hi c (text lo hi)
  | BDefList l => l <> [] /\ def_items_ok (S d) lo l hi
  | BTable t => table_ok (negb top) d lo hi t
  | BParagraph ls => ls <> [] /\ para_ok d lo ls hi
  | BList items =>
      bol inner lo /\
      map (fun x => li_pos (l_val x)) items = seq 0 (length items) /\
      (exists first others, items = first :: others /\
         Forall (fun x => li_ty (l_val x) = li_ty (l_val first)) others /\
         exists pre, prefix_ok (li_ty (l_val first)) (li_suffix (l_val first)) pre /\
                     starts_with pre (text (r_off (l_reg first)) hi) = true) /\
      exists k, chain bd (fun a b => bol inner a /\ b = a + k /\ blanks (text a b)) exact
                      (fun a b i => item_ok k (S d) a b i) (S d) lo items hi
  end
with item_ok (k d lo hi : nat) (i : list_item) {struct i} : Prop :=
  match i with
  | ListItem ty suf _ contents todo =>
      contents <> [] /\
      Forall (fun x => indented_more k (r_off (l_reg x))) (tl contents) /\
      exists ty' pre, prefix_ok ty' suf pre /\
        let o := lo + length pre + length (todo_str todo) in
        text lo o = pre ++ todo_str todo /\
        chain bd exact exact (fun a b x => block_ok false (S d) a b x) (S d) o contents hi
  end.

(** A page: blocks of depth 0, each at the beginning of a line, with nothing
    but white space around them. *)
Definition page_ok (p : page) : Prop :=
  chain bd (ws_gap inner) (fun lo hi => lo <= hi /\ ws_gap inner lo hi)
        (fun lo hi b => bol inner lo /\ block_ok true 0 lo hi b)
        0 0 p (length inner).

End DocB.
