(** The macros of /repo/vimwiki_macros: how the text of a literal becomes the
    text that is parsed (utils.rs), how placeholders become calls of [format!]
    (formatter.rs) and what value the generated expression has (tokens/).

    The token stream itself is not represented: each [tokenize_*] function is
    modelled by the value of the expression it generates, [None] standing for
    code that does not compile (or, for URIs and sub-slices, that panics). *)
From Verif Require Import Base ModelSpan ModelComb ModelAst ModelTable ModelLink ModelInline ModelBlock ModelElem.
Local Open Scope nat_scope.

(** * utils.rs *)

(** [str::lines]: the pieces ended by a line feed, without it and without a
    carriage return right before it; a last piece without line feed is kept as
    it is, and dropped if empty. *)
Definition strip_cr (l : str) : str :=
  match rev l with x0d :: r => rev r | _ => l end.
Fixpoint str_lines_of (ps : list str) : list str :=
  match ps with
  | [] => []
  | [p] => match p with [] => [] | _ => [p] end
  | p :: ps' => strip_cr p :: str_lines_of ps'
  end.
Definition str_lines (s : str) : list str := str_lines_of (split_on x0a s).

(** [str::find], [str::rfind] of a quotation mark. *)
Fixpoint find_byte (c : byte) (l : str) : option nat :=
  match l with
  | [] => None
  | b :: l' => if beqb b c then Some 0 else option_map S (find_byte c l')
  end.
Definition rfind_byte (c : byte) (l : str) : option nat :=
  match find_byte c (rev l) with
  | Some i => Some (length l - 1 - i)
  | None => None
  end.

Inductive macro_text :=
| MText (s : str)      (* the text to parse *)
| MError               (* [Err]: a compile error with a message *)
| MPanic.              (* the macro panics while it is expanded *)

(** utils.rs:33. *)
Definition blank_line (l : str) : bool :=
  match str_trim l with [] => true | _ => false end.
(** utils.rs:34. *)
Definition line_indent (l : str) : nat := length l - length (str_trim_start l).

(** utils.rs:47-49: [start] is 0 in this loop. *)
Fixpoint move_back (blank : nat -> bool) (e : nat) : nat :=
  match e with
  | 0 => 0
  | S e' => if blank e then move_back blank e' else e
  end.
(** utils.rs:53-55: at most [end + 1] rounds. *)
Fixpoint move_on (fuel : nat) (blank : nat -> bool) (e s : nat) : nat :=
  match fuel with
  | 0 => s
  | S f => if (s <=? e) && blank s then move_on f blank e (S s) else s
  end.

(** utils.rs:39-69: [None] is the error for blank input. *)
Definition content_lines (ls : list str) : option (list str) :=
  match ls with
  | [] => Some []
  | _ =>
      let blank i := blank_line (nth i ls []) in
      let e := move_back blank (length ls - 1) in
      let s := move_on (S e) blank e 0 in
      if s <=? e then Some (firstn (S e - s) (skipn s ls)) else None
  end.

(** utils.rs:81-83; [usize::MAX] (no line at all) is never used as an index. *)
Fixpoint min_indent (ls : list str) : nat :=
  match ls with
  | [] => 0
  | [l] => line_indent l
  | l :: ls' => Nat.min (line_indent l) (min_indent ls')
  end.
Fixpoint slice_all (n : nat) (ls : list str) : option (list str) :=
  match ls with
  | [] => Some []
  | l :: ls' => match str_from n l, slice_all n ls' with
                | Some x, Some xs => Some (x :: xs)
                | _, _ => None
                end
  end.

(** utils.rs:28-92. *)
Definition arrange (raw : bool) (s : str) : macro_text :=
  match content_lines (str_lines s) with
  | None => MError
  | Some ls =>
      if raw then MText (join [x0a] ls)
      else match slice_all (min_indent ls) ls with
           | Some xs => MText (join [x0a] xs)
           | None => MPanic
           end
  end.

(** utils.rs:10-92.  [token] is what [TokenTree::to_string] returns: for a
    literal, its source text. *)
Definition input_to_string (raw : bool) (token : str) : macro_text :=
  let repr := str_trim token in
  if starts_with [x22] repr || starts_with (bs "r") repr
     || starts_with [x62; x22] repr || starts_with (bs "br") repr then
    match find_byte x22 repr, rfind_byte x22 repr with
    | Some b, Some e =>
        if e <? S b then MPanic
        else arrange raw (firstn (e - S b) (skipn (S b) repr))
    | _, _ => MPanic
    end
  else MError.

(** * formatter.rs *)

(** formatter.rs:36, the regular expression: an opening brace, then characters
    other than a colon, as few as possible, then possibly a colon and
    characters other than a line feed, as few as possible, then a closing
    brace.  So the argument ends at the first colon or closing brace, and what
    follows a colon at the first closing brace.  [hole] is given what follows
    the opening brace; it returns argument, specification, rest. *)
Fixpoint arg_end (l : str) : option (str * bool * str) :=
  match l with
  | [] => None
  | x3a :: l' => Some ([], true, l')
  | x7d :: l' => Some ([], false, l')
  | b :: l' => match arg_end l' with
               | Some (a, colon, r) => Some (b :: a, colon, r)
               | None => None
               end
  end.
Fixpoint spec_end (l : str) : option (str * str) :=
  match l with
  | [] => None
  | x7d :: l' => Some ([], l')
  | x0a :: _ => None
  | b :: l' => match spec_end l' with
               | Some (s, r) => Some (b :: s, r)
               | None => None
               end
  end.
Definition hole (l : str) : option (str * option str * str) :=
  match arg_end l with
  | Some (a, false, r) => Some (a, None, r)
  | Some (a, true, r) => match spec_end r with
                         | Some (s, r') => Some (a, Some s, r')
                         | None => None
                         end
  | None => None
  end.
Definition spec_text (sp : option str) : str := match sp with Some s => x3a :: s | None => [] end.
Definition hole_text (a : str) (sp : option str) : str := x7b :: a ++ spec_text sp ++ [x7d].

(** [Regex::replace_all] with a function that keeps a state; every round
    consumes a byte, so the length of the text is fuel enough. *)
Section Replace.
Context {T : Type}.
Variable f : T -> str -> option str -> T * str.
Fixpoint replace_all (fuel : nat) (st : T) (l : str) : T * str :=
  match fuel with
  | 0 => (st, l)
  | S n =>
      match l with
      | [] => (st, [])
      | b :: l' =>
          match (if beqb b x7b then hole l' else None) with
          | Some (a, sp, r) =>
              let '(st1, t) := f st a sp in
              let '(st2, t2) := replace_all n st1 r in
              (st2, t ++ t2)
          | None => let '(st2, t2) := replace_all n st l' in (st2, b :: t2)
          end
      end
  end.
End Replace.

(** formatter.rs:41-67: [next_argument], [positions] and [names]; a name that
    occurs twice is listed twice, which changes nothing. *)
Record seen := Seen { sn_next : N; sn_pos : list N; sn_names : list str }.
Definition first_pass (st : seen) (a : str) (sp : option str) : seen * str :=
  match str_trim a with
  | [] =>
      (Seen (sn_next st + 1) (sn_pos st ++ [sn_next st]) (sn_names st),
       hole_text (dec (sn_next st)) sp)
  | t =>
      match parse_usize t with
      | Some p => (Seen (sn_next st) (sn_pos st ++ [p]) (sn_names st), hole_text a sp)
      | None => (Seen (sn_next st) (sn_pos st) (sn_names st ++ [t]), hole_text a sp)
      end
  end.

(** formatter.rs:72-76: the distinct positions in ascending order. *)
Fixpoint insert_pos (p : N) (l : list N) : list N :=
  match l with
  | [] => [p]
  | q :: l' => if (p <? q)%N then p :: l else if (p =? q)%N then l else q :: insert_pos p l'
  end.
Definition sort_pos (l : list N) : list N := fold_right insert_pos [] l.
(** formatter.rs:114-117 [arg_to_idx]. *)
Fixpoint index_of (p : N) (l : list N) : option nat :=
  match l with
  | [] => None
  | q :: l' => if (p =? q)%N then Some 0 else option_map S (index_of p l')
  end.

Section Format.
(** The arguments given to the macro: their values at run time, and how the
    value is displayed under a format specification; [None] where the type
    does not support it. *)
Context {V : Type}.
Variable args : list V.
Variable names : list (str * V).
Variable show : V -> str -> option str.

Definition positional (p : N) : option V :=
  if (p <? N.of_nat (length args))%N then nth_error args (N.to_nat p) else None.
Fixpoint named (l : list (str * V)) (n : str) : option V :=
  match l with
  | [] => None
  | (k, v) :: l' => if str_eqb k n then Some v else named l' n
  end.
Fixpoint all_found {A B} (f : A -> option B) (l : list A) : option (list B) :=
  match l with
  | [] => Some []
  | x :: l' => match f x, all_found f l' with
               | Some y, Some ys => Some (y :: ys)
               | _, _ => None
               end
  end.

(** formatter.rs:118-132; the state tells that [unwrap] failed. *)
Definition second_pass (sorted : list N) (bad : bool) (a : str) (sp : option str) : bool * str :=
  match parse_usize (str_trim a) with
  | Some p => match index_of p sorted with
              | Some i => (bad, hole_text (dec (N.of_nat i)) sp)
              | None => (true, [])
              end
  | None => (bad, hole_text a sp)
  end.

(** formatter.rs:34-140: the counter afterwards, and format string, positional
    and named arguments of the generated [format!]. *)
Definition quote_format_str (next : N) (input : str) : N * option (str * list V * list (str * V)) :=
  let '(sn, input1) := replace_all first_pass (length input) (Seen next [] []) input in
  let sorted := sort_pos (sn_pos sn) in
  (sn_next sn,
   match all_found positional sorted with
   | None => None
   | Some pos_args =>
       match all_found (fun n => option_map (fun v => (n, v)) (named names n)) (sn_names sn) with
       | None => None
       | Some name_args =>
           let '(bad, input2) := replace_all (second_pass sorted) (length input1) false input1 in
           if bad then None else Some (input2, pos_args, name_args)
       end
   end).

(** * [std::format!]

    Doubled braces are braces; anything else in braces is an argument (none: the
    next in line; digits: that position; an identifier: the named one), then
    possibly a colon and a specification, then possibly white space.
    Specifications that name arguments themselves ([{:1$}]) are taken as
    errors.  That every argument is used is not checked: formatter.rs passes
    only arguments that the string mentions. *)
Definition is_ident_byte (b : byte) : bool :=
  ((97 <=? byte_n b) && (byte_n b <=? 122)) || ((65 <=? byte_n b) && (byte_n b <=? 90))
  || is_digit b || beqb b x5f.
(** An underscore alone is not an identifier.  Only identifiers of ASCII
    characters are represented. *)
Definition is_ident (l : str) : bool :=
  match l with
  | [] => false
  | b :: _ => negb (str_eqb l [x5f]) && negb (is_digit b) && forallb is_ident_byte l
  end.
Fixpoint to_brace (l : str) : option (str * str) :=
  match l with
  | [] => None
  | x7d :: l' => Some ([], l')
  | b :: l' => match to_brace l' with Some (s, r) => Some (b :: s, r) | None => None end
  end.
(** After an opening brace: argument, specification, rest. *)
Definition std_hole (l : str) : option (str * str * str) :=
  match arg_end l with
  | Some (a, false, r) => Some (str_trim_end a, [], r)
  | Some (a, true, r) => match to_brace r with
                         | Some (s, r') => Some (a, str_trim_end s, r')
                         | None => None
                         end
  | None => None
  end.
Definition std_arg (pa : list V) (na : list (str * V)) (next : nat) (a : str) : option (V * nat) :=
  match a with
  | [] => option_map (fun v => (v, S next)) (nth_error pa next)
  | _ =>
      if forallb is_digit a then
        match parse_usize a with
        | Some p => if (p <? N.of_nat (length pa))%N
                    then option_map (fun v => (v, next)) (nth_error pa (N.to_nat p)) else None
        | None => None
        end
      else if is_ident a then option_map (fun v => (v, next)) (named na a) else None
  end.
Fixpoint std_format (fuel : nat) (pa : list V) (na : list (str * V)) (next : nat) (l : str) : option str :=
  match fuel with
  | 0 => match l with [] => Some [] | _ => None end
  | S n =>
      match l with
      | [] => Some []
      | x7b :: x7b :: r => option_map (cons x7b) (std_format n pa na next r)
      | x7d :: x7d :: r => option_map (cons x7d) (std_format n pa na next r)
      | x7d :: _ => None
      | x7b :: r =>
          match std_hole r with
          | Some (a, sp, r') =>
              if existsb (fun b => beqb b x24) sp then None else
              match std_arg pa na next a with
              | Some (v, next') =>
                  match show v sp, std_format n pa na next' r' with
                  | Some t, Some u => Some (t ++ u)
                  | _, _ => None
                  end
              | None => None
              end
          | None => None
          end
      | b :: r => option_map (cons b) (std_format n pa na next r)
      end
  end.

(** tokens/mod.rs:13-21 [quote_str] when not verbatim, and the value of what it
    generates. *)
Definition formatted (next : N) (s : str) : N * option str :=
  let '(next', r) := quote_format_str next s in
  (next',
   match r with
   | Some (f, pa, na) => std_format (length f) pa na 0 f
   | None => None
   end).
End Format.

(** * tokens/

    A computation that generates code: it may advance the counter of the
    formatter and fails if the code would not compile. *)
Definition gen (A : Type) : Type := N -> option (N * A).
Definition gret {A} (x : A) : gen A := fun n => Some (n, x).
Definition gbind {A B} (m : gen A) (k : A -> gen B) : gen B :=
  fun n => match m n with Some (n', x) => k x n' | None => None end.
Notation "'gen!' x <- m ; k" := (gbind m (fun x => k)) (at level 200, x name, m at level 100, k at level 200).
Section Each.
Context {A B : Type}.
Variable f : A -> gen B.
Fixpoint g_each (l : list A) : gen (list B) :=
  match l with
  | [] => gret []
  | x :: l' => gen! y <- f x ; gen! ys <- g_each l' ; gret (y :: ys)
  end.
(** tokens/utils.rs:77-88 [tokenize_option]. *)
Definition g_opt (o : option A) : gen (option B) :=
  match o with
  | Some x => gen! y <- f x ; gret (Some y)
  | None => gret None
  end.
(** tokens/elements/location.rs:6-39: the region is rebuilt by [Region::new],
    which knows no depth. *)
Definition g_loc (x : located A) : gen (located B) :=
  gen! y <- f (l_val x) ; gret (Loc y (Region (r_off (l_reg x)) (r_len (l_reg x)) 0)).
End Each.

Section Tokens.
(** tokens/mod.rs:13-21 [quote_str] *)
Variable q : str -> gen str.
(** [URIReference::try_from]. *)
Variable uri_parse : str -> option uri.

(** tokens/primitives.rs:66-80 [tokenize_uri_reference]. *)
Definition g_uri (u : uri) : gen uri :=
  fun n => match uri_parse (uri_display u) with Some v => Some (n, v) | None => None end.
(** tokens/utils.rs:55-72 [tokenize_hashmap] of texts. *)
Definition g_map (m : list (str * str)) : gen (list (str * str)) :=
  gen! ps <- g_each (fun kv => gen! k <- q (fst kv) ; gen! v <- q (snd kv) ; gret (k, v)) m ;
  gret (collect_map ps).
(** tokens/elements/blocks/inline/links.rs:42-86. *)
Fixpoint g_desc (d : description) : gen description :=
  match d with
  | DescText t => gen! t' <- q t ; gret (DescText t')
  | DescTransclusion x => gen! x' <- g_data x ; gret (DescTransclusion x')
  end
with g_data (x : link_data) : gen link_data :=
  match x with
  | LinkData u d p =>
      gen! u' <- g_uri u ;
      gen! d' <- match d with
                 | Some y => gen! y' <- g_desc y ; gret (Some y')
                 | None => gret None
                 end ;
      gen! p' <- g_opt g_map p ;
      gret (LinkData u' d' p')
  end.
(** links.rs:9-40; [NaiveDate::from_ymd] of the parts of a date is the date. *)
Definition g_link (l : link) : gen link :=
  match l with
  | LWiki d => gen! d' <- g_data d ; gret (LWiki d')
  | LIndexed i d => gen! d' <- g_data d ; gret (LIndexed i d')
  | LNamed n d => gen! n' <- q n ; gen! d' <- g_data d ; gret (LNamed n' d')
  | LDiary t d => gen! d' <- g_data d ; gret (LDiary t d')
  | LRaw d => gen! d' <- g_data d ; gret (LRaw d')
  | LTransclusion d => gen! d' <- g_data d ; gret (LTransclusion d')
  end.
(** inline/typefaces.rs:6-98. *)
Fixpoint g_dc (c : dcontent) : gen dcontent :=
  match c with
  | DCText t => gen! t' <- q t ; gret (DCText t')
  | DCDeco k cs => gen! cs' <- g_each (g_loc g_dc) cs ; gret (DCDeco k cs')
  | DCKeyword k => gret (DCKeyword k)
  | DCLink l => gen! l' <- g_link l ; gret (DCLink l')
  end.
(** inline/mod.rs:27-67, tags.rs:7-23, code.rs:7-17, math.rs:7-17,
    comments.rs:7-46. *)
Definition g_inline (i : inline) : gen inline :=
  match i with
  | IText t => gen! t' <- q t ; gret (IText t')
  | IDeco k cs => gen! cs' <- g_each (g_loc g_dc) cs ; gret (IDeco k cs')
  | IKeyword k => gret (IKeyword k)
  | ILink l => gen! l' <- g_link l ; gret (ILink l')
  | ITags ts => gen! ts' <- g_each q ts ; gret (ITags ts')
  | ICode t => gen! t' <- q t ; gret (ICode t')
  | IMath t => gen! t' <- q t ; gret (IMath t')
  | IComment (CLine t) => gen! t' <- q t ; gret (IComment (CLine t'))
  | IComment (CMulti ls) => gen! ls' <- g_each q ls ; gret (IComment (CMulti ls'))
  end.
(** inline/mod.rs:13-25. *)
Definition g_cont (c : container) : gen container := g_each (g_loc g_inline) c.
(** blocks/headers.rs:6-19. *)
Definition g_header (h : header) : gen header :=
  gen! c <- g_cont (h_content h) ; gret (Header c (h_level h) (h_centered h)).
(** blocks/placeholders.rs:6-39. *)
Definition g_placeholder (p : placeholder) : gen placeholder :=
  match p with
  | PTitle t => gen! t' <- q t ; gret (PTitle t')
  | PNoHtml => gret PNoHtml
  | PTemplate t => gen! t' <- q t ; gret (PTemplate t')
  | PDate d => gret (PDate d)
  | POther n v => gen! n' <- q n ; gen! v' <- q v ; gret (POther n' v')
  end.
(** blocks/code.rs:11-35: the lines are tokenized last, when they are put in. *)
Definition g_code (c : code_block) : gen code_block :=
  gen! l <- g_opt q (cb_lang c) ;
  gen! m <- g_map (cb_meta c) ;
  gen! ls <- g_each q (cb_lines c) ;
  gret (CodeBlock l m ls).
(** blocks/math.rs:8-25: likewise, so the environment comes first. *)
Definition g_math (m : math_block) : gen math_block :=
  gen! e <- g_opt q (mb_env m) ;
  gen! ls <- g_each q (mb_lines m) ;
  gret (MathBlock ls e).
(** blocks/definitions.rs:8-55. *)
Definition g_td (t : term_defs) : gen term_defs :=
  gen! a <- g_loc g_cont (td_term t) ;
  gen! b <- g_loc (g_each (g_loc g_cont)) (td_defs t) ;
  gret (TermDefs a b).
(** blocks/tables.rs:9-95: the counts are those of [Table::new].  The cells are
    tokenized in the order in which the hash map yields them. *)
Definition g_cell (c : cell) : gen cell :=
  match c with
  | CContent x => gen! x' <- g_cont x ; gret (CContent x')
  | CSpan s => gret (CSpan s)
  | CAlign a => gret (CAlign a)
  end.
Definition g_table (t : table) : gen table :=
  gen! cs <- g_each (fun kv => gen! c <- g_loc g_cell (snd kv) ; gret (fst kv, c)) (t_cells t) ;
  gret (table_new (cells_collect cs) (t_centered t)).
(** blocks/lists.rs:90-136; the other parts of an item's head have no text. *)
Definition g_item_ty (t : item_ty) : gen item_ty :=
  match t with
  | TUnordered (UOther p) => gen! p' <- q p ; gret (TUnordered (UOther p'))
  | _ => gret t
  end.
(** blocks/mod.rs:18-66, blockquotes.rs:6-16, paragraphs.rs:6-16,
    dividers.rs:6-12, lists.rs:12-51, 138-153. *)
Fixpoint g_block (b : block) : gen block :=
  match b with
  | BBlockquote ls => gen! ls' <- g_each q ls ; gret (BBlockquote ls')
  | BDefList d => gen! d' <- g_each (g_loc g_td) d ; gret (BDefList d')
  | BDivider => gret BDivider
  | BHeader h => gen! h' <- g_header h ; gret (BHeader h')
  | BList items => gen! is' <- g_each (g_loc g_item) items ; gret (BList is')
  | BMath m => gen! m' <- g_math m ; gret (BMath m')
  | BParagraph ls => gen! ls' <- g_each g_cont ls ; gret (BParagraph ls')
  | BPlaceholder p => gen! p' <- g_placeholder p ; gret (BPlaceholder p')
  | BCode c => gen! c' <- g_code c ; gret (BCode c')
  | BTable t => gen! t' <- g_table t ; gret (BTable t')
  end
with g_item (i : list_item) : gen list_item :=
  match i with
  | ListItem ty suf pos cs todo =>
      gen! ty' <- g_item_ty ty ;
      gen! cs' <- g_each (g_loc g_block) cs ;
      gret (ListItem ty' suf pos cs' todo)
  end.
(** tokens/elements/mod.rs:10-17. *)
Definition g_page (p : page) : gen page := g_each (g_loc g_block) p.
End Tokens.

(** tokens/mod.rs:13-21 [quote_str]. *)
Definition verbatim_str (s : str) : gen str := gret s.
Definition format_str {V} (args : list V) (names : list (str * V)) (show : V -> str -> option str) (s : str) : gen str :=
  fun n => let '(n', r) := formatted args names show n s in
           match r with Some t => Some (n', t) | None => None end.

(** * lib.rs *)

Inductive macro_result :=
| MPage (p : page)     (* the macro's value *)
| MFails.              (* the program does not compile, or the value panics *)

(** lib.rs:20-70, 104: [vimwiki_page] and its variants. *)
Section Macro.
Variable uri_parse : str -> option uri.
Variable date_parse : str -> option date.
Definition macro_page (q : str -> gen str) (raw : bool) (token : str) : macro_result :=
  match input_to_string raw token with
  | MText text =>
      match parse_page uri_parse date_parse text with
      | Ok _ p => match g_page q uri_parse p 0%N with
                  | Some (_, p') => MPage p'
                  | None => MFails
                  end
      | _ => MFails
      end
  | _ => MFails
  end.
End Macro.
