(** Block parsers and [page]:
    /repo/vimwiki-core/src/lang/parsers/vimwiki/{mod.rs,blocks/*.rs}. *)
From Verif Require Import Base ModelSpan ModelComb ModelAst ModelTable ModelLink ModelInline.

(** Byte length of the Unicode whitespace character at the head of a UTF-8
    string, 0 if there is none (the White_Space characters of
    [char::is_whitespace]). *)
Definition uws_len (l : str) : nat :=
  match l with
  | x09 :: _ | x0a :: _ | x0b :: _ | x0c :: _ | x0d :: _ | x20 :: _ => 1
  | xc2 :: x85 :: _ | xc2 :: xa0 :: _ => 2
  | xe1 :: x9a :: x80 :: _ => 3
  | xe2 :: x80 :: b :: _ =>
      if ((128 <=? byte_n b) && (byte_n b <=? 138)) || beqb b xa8 || beqb b xa9 || beqb b xaf
      then 3 else 0
  | xe2 :: x81 :: x9f :: _ => 3
  | xe3 :: x80 :: x80 :: _ => 3
  | _ => 0
  end.

(** [line.len() - line.trim_start().len()]: bytes of leading Unicode
    whitespace. *)
Fixpoint leading_uws (fuel : nat) (l : str) : nat :=
  match fuel with
  | 0 => 0
  | S f => match uws_len l with
           | 0 => 0
           | n => n + leading_uws f (skipn n l)
           end
  end.
Definition count_leading_uws (l : str) : nat := leading_uws (length l) l.

(** [&x[n..]] on a [str]: [None] is the panic for an index past the end or
    off a char boundary. *)
Definition str_from (n : nat) (l : str) : option str :=
  if length l <? n then None
  else match skipn n l with
       | b :: _ => if (0 <? n) && is_cont b then None else Some (skipn n l)
       | [] => Some []
       end.

(** code.rs:37-55 and math.rs:38-56: remove up to [indent] bytes of leading
    whitespace from each line. *)
Definition dedent_line (indent : nat) (l : str) : option str :=
  str_from (Nat.min (count_leading_uws l) indent) l.
Fixpoint dedent (indent : nat) (ls : list str) : option (list str) :=
  match ls with
  | [] => Some []
  | l :: ls' => match dedent_line indent l, dedent indent ls' with
                | Some x, Some xs => Some (x :: xs)
                | _, _ => None
                end
  end.

(** elements/blocks/headers.rs [Header::MIN_LEVEL], [MAX_LEVEL]. *)
Definition min_level : nat := 1.
Definition max_level : nat := 6.

Section Block.
Variable uri_parse : str -> option uri.
Variable date_parse : str -> option date.

Local Notation container_p := (inline_element_container uri_parse date_parse).

(** The [map(inline_element_container, into_inner)] used everywhere. *)
Definition container_inner : parser container := pmap container_p l_val.

(** * Headers *)

(** headers.rs:50-89 [header_tail].  [take(1)] guarantees one byte, so
    [as_bytes()[0]] does not panic. *)
Definition header_tail (level : nat) : parser container :=
  fun s =>
    do (s1, rol) <- take_until_end_of_line_or_input s;;
    do (rol1, _) <- trim_trailing_whitespace rol;;
    do (rol2, _) <- verify (take_end level) (fun e => forallb (beqb x3d) (remaining e)) rol1;;
    do (rol3, _) <- peek (verify (take 1)
                            (fun e => negb (starts_with (bs "=") (remaining e)))) rol2;;
    do (rol4, _) <- peek (verify (take_end 1)
                            (fun e => negb (starts_with (bs "=") (remaining e)))) rol3;;
    do (rol5, _) <- trim_whitespace rol4;;
    do (_, c) <- container_inner rol5;;
    Ok s1 c.

(** headers.rs:21-48 [header]. *)
Definition p_header : parser (located header) :=
  located_p (fun s =>
    do (s1, _) <- beginning_of_line s;;
    do (s2, centered) <- pmap space0 non_empty s1;;
    do (s3, level) <- verify (pmap (take_line_while1 (pchar x3d)) remaining_len)
                             (fun l => (min_level <=? l) && (l <=? max_level)) s2;;
    do (s4, h) <- pmap (header_tail level) (fun c => Header c level centered) s3;;
    do (s5, _) <- end_of_line_or_input s4;;
    Ok s5 h).

(** * Dividers *)

(** dividers.rs:14-26 [divider]. *)
Definition p_divider : parser (located unit) :=
  located_p (fun s =>
    do (s1, _) <- beginning_of_line s;;
    do (s2, _) <- verify (take_line_while1 (pchar x2d)) (fun sp => 4 <=? remaining_len sp) s1;;
    do (s3, _) <- end_of_line_or_input s2;;
    Ok s3 tt).

(** * Placeholders *)

(** The text of a placeholder: the rest of the line, rejected when
    [is_only_whitespace]. *)
Definition placeholder_text : parser str :=
  map_parser (verify take_until_end_of_line_or_input (fun sp => negb (is_only_whitespace sp)))
             cow_str.

(** placeholders.rs:38-52. *)
Definition placeholder_title : parser placeholder :=
  fun s =>
    do (s1, _) <- tag (bs "%title") s;;
    do (s2, _) <- space1 s1;;
    do (s3, t) <- placeholder_text s2;;
    Ok s3 (PTitle t).

(** placeholders.rs:54-62. *)
Definition placeholder_nohtml : parser placeholder :=
  fun s =>
    do (s1, _) <- tag (bs "%nohtml") s;;
    do (s2, _) <- space0 s1;;
    Ok s2 PNoHtml.

(** placeholders.rs:64-78. *)
Definition placeholder_template : parser placeholder :=
  fun s =>
    do (s1, _) <- tag (bs "%template") s;;
    do (s2, _) <- space1 s1;;
    do (s3, t) <- placeholder_text s2;;
    Ok s3 (PTemplate t).

(** placeholders.rs:80-95. *)
Definition placeholder_date : parser placeholder :=
  fun s =>
    do (s1, _) <- tag (bs "%date") s;;
    do (s2, _) <- space1 s1;;
    do (s3, d) <- map_opt take_until_end_of_line_or_input
                          (fun sp => date_parse (remaining sp)) s2;;
    Ok s3 (PDate d).

(** placeholders.rs:97-120. *)
Definition placeholder_other : parser placeholder :=
  fun s =>
    do (s1, _) <- pnot (tag (bs "%title")) s;;
    do (s2, _) <- pnot (tag (bs "%nohtml")) s1;;
    do (s3, _) <- pnot (tag (bs "%template")) s2;;
    do (s4, _) <- pnot (tag (bs "%date")) s3;;
    do (s5, _) <- tag (bs "%") s4;;
    do (s6, name) <- map_parser (take_line_until_one_of_three1 (bs " ") [b_tab] (bs "%")) cow_str s5;;
    do (s7, _) <- space1 s6;;
    do (s8, v) <- placeholder_text s7;;
    Ok s8 (POther name v).

(** placeholders.rs:21-36 [placeholder]. *)
Definition p_placeholder : parser (located placeholder) :=
  fun s =>
    do (s1, _) <- beginning_of_line s;;
    do (s2, p) <- located_p (alt [placeholder_title; placeholder_nohtml; placeholder_template;
                                  placeholder_date; placeholder_other]) s1;;
    do (s3, _) <- end_of_line_or_input s2;;
    Ok s3 p.

(** * Blockquotes *)

(** blockquotes.rs:35-44. *)
Definition indented_blockquote_line : parser str :=
  fun s =>
    do (s1, _) <- verify space0 (fun sp => 4 <=? remaining_len sp) s;;
    do (s2, t) <- map_parser (verify not_line_ending (fun sp => negb (is_only_whitespace sp)))
                             cow_str s1;;
    do (s3, _) <- end_of_line_or_input s2;;
    Ok s3 t.

(** blockquotes.rs:24-31. *)
Definition indented_blockquote : parser (located (list str)) :=
  located_p (many1 indented_blockquote_line).

(** blockquotes.rs:78-85. *)
Definition arrow_blockquote_line : parser str :=
  fun s =>
    do (s1, _) <- space0 s;;
    do (s2, _) <- tag (bs "> ") s1;;
    do (s3, t) <- map_parser not_line_ending cow_str s2;;
    do (s4, _) <- end_of_line_or_input s3;;
    Ok s4 t.

(** blockquotes.rs:46-74. *)
Definition arrow_blockquote : parser (located (list str)) :=
  located_p (pmap
    (pair (many1 arrow_blockquote_line)
          (pmap (many0 (pair (many0 (value ([] : str) blank_line)) arrow_blockquote_line))
                (flat_map (fun p => fst p ++ [snd p]))))
    (fun p => fst p ++ snd p)).

(** blockquotes.rs:20-22. *)
Definition p_blockquote : parser (located (list str)) := palt indented_blockquote arrow_blockquote.

(** * Math blocks *)

(** math.rs:65-80. *)
Definition beginning_of_math_block : parser (nat * option str) :=
  fun s =>
    do (s1, n) <- map_parser space0 count_remaining_bytes s;;
    do (s2, _) <- tag (bs "{{$") s1;;
    do (s3, env) <- opt (map_parser (delimited (pchar x25) (take_line_until1 (bs "%")) (pchar x25))
                                    cow_str) s2;;
    do (s4, _) <- space0 s3;;
    do (s5, _) <- line_ending s4;;
    Ok s5 (n, env).

(** math.rs:82-89. *)
Definition end_of_math_block : parser nat :=
  fun s =>
    do (s1, n) <- map_parser space0 count_remaining_bytes s;;
    do (s2, _) <- tag (bs "}}$") s1;;
    do (s3, _) <- space0 s2;;
    do (s4, _) <- end_of_line_or_input s3;;
    Ok s4 n.

(** math.rs:20-63 [math_block]. *)
Definition p_math_block : parser (located math_block) :=
  located_p (fun s =>
    do (s1, b) <- beginning_of_math_block s;;
    do (s2, lines) <- many0 (preceded (pnot end_of_math_block) (map_parser any_line cow_str)) s1;;
    do (s3, e) <- end_of_math_block s2;;
    match dedent (Nat.min (fst b) e) lines with
    | Some ls => Ok s3 (MathBlock ls (snd b))
    | None => Panic
    end).

(** * Code blocks *)

(** code.rs:64-109. *)
Definition code_block_start : parser (nat * option str * list (str * str)) :=
  fun s =>
    do (s1, n) <- map_parser space0 count_remaining_bytes s;;
    do (s2, _) <- tag (bs "{{{") s1;;
    do (s3, lang) <- opt (map_parser
                            (verify (take_line_until1 (bs " "))
                                    (fun sp => negb (existsb (beqb x3d) (remaining sp))))
                            cow_str) s2;;
    do (s4, _) <- space0 s3;;
    do (s5, pairs) <- separated_list0 space1
                        (separated_pair
                           (map_parser (take_line_until1 (bs "=")) cow_str)
                           (pchar x3d)
                           (delimited (pchar x22) (map_parser (take_line_until [x22]) cow_str)
                                      (pchar x22))) s4;;
    do (s6, _) <- space0 s5;;
    do (s7, _) <- end_of_line_or_input s6;;
    Ok s7 (n, lang, collect_map pairs).

(** code.rs:112-120. *)
Definition code_block_end : parser nat :=
  fun s =>
    do (s1, n) <- map_parser space0 count_remaining_bytes s;;
    do (s2, _) <- tag (bs "}}}") s1;;
    do (s3, _) <- space0 s2;;
    do (s4, _) <- end_of_line_or_input s3;;
    Ok s4 n.

(** code.rs:24-61 [code_block]. *)
Definition p_code_block : parser (located code_block) :=
  located_p (fun s =>
    do (s1, b) <- code_block_start s;;
    do (s2, lines) <- many0 (preceded (pnot code_block_end) (map_parser any_line cow_str)) s1;;
    do (s3, e) <- code_block_end s2;;
    match dedent (Nat.min (fst (fst b)) e) lines with
    | Some ls => Ok s3 (CodeBlock (snd (fst b)) (snd b) ls)
    | None => Panic
    end).

(** * Definition lists *)

(** definitions.rs:57-95 [term_line]. *)
Definition term_line : parser (located container * option (located container)) :=
  fun s =>
    do (s1, _) <- space0 s;;
    do (s2, term) <- located_p (terminated
                       (map_parser
                          (verify (take_line_until1 (bs "::"))
                             (fun sp => negb (starts_with (bs "%%") (remaining (trim_start sp)))))
                          container_inner)
                       (tag (bs "::"))) s1;;
    do (s3, def) <- opt (located_p (preceded space1
                       (map_parser take_until_end_of_line_or_input container_inner))) s2;;
    do (s4, _) <- pair space0 end_of_line_or_input s3;;
    Ok s4 (term, def).

(** definitions.rs:99-117 [definition_line]. *)
Definition definition_line : parser (located container) :=
  located_p (fun s =>
    do (s1, _) <- space0 s;;
    do (s2, _) <- tag (bs "::") s1;;
    do (s3, _) <- space1 s2;;
    do (s4, def) <- map_parser take_until_end_of_line_or_input container_inner s3;;
    do (s5, _) <- end_of_line_or_input s4;;
    Ok s5 def).

(** definitions.rs:37-53 [term_and_definitions]. *)
Definition term_and_definitions
  : parser (located container * located (list (located container))) :=
  fun s =>
    do (s1, td) <- term_line s;;
    do (s2, bundle) <- located_p
         (verify (many0 definition_line)
            (fun defs => match snd td with Some _ => true | None => false end
                         || match defs with [] => false | _ => true end)) s1;;
    let bundle' := match snd td with
                   | Some d => Loc (d :: l_val bundle) (l_reg bundle)
                   | None => bundle
                   end in
    Ok s2 (fst td, bundle').

(** elements/blocks/definitions.rs:369-395 [DefinitionList::from_iter]. *)
Definition def_item (p : located container * located (list (located container)))
  : located term_defs :=
  Loc (TermDefs (fst p) (snd p))
      (Region (r_off (l_reg (fst p))) (r_len (l_reg (fst p)) + r_len (l_reg (snd p))) 0).

(** definitions.rs:25-33 [definition_list]. *)
Definition p_definition_list : parser (located def_list) :=
  located_p (pmap (many1 (deeper term_and_definitions)) (map def_item)).

(** * Tables *)

(** tables.rs:93-106 [column_align]. *)
Definition column_align : parser col_align :=
  fun s =>
    do (s1, a) <- opt (pchar x3a) s;;
    do (s2, _) <- take_line_while1 (pchar x2d) s1;;
    do (s3, b) <- opt (pchar x3a) s2;;
    Ok s3 (match a, b with
           | Some _, Some _ => AlCenter
           | None, Some _ => AlRight
           | Some _, None => AlLeft
           | None, None => AlNone
           end).

(** tables.rs:128-135. *)
Definition cell_span_left : parser cell_span :=
  value FromLeft (delimited space0 (tag (bs ">")) space0).
Definition cell_span_above : parser cell_span :=
  value FromAbove (delimited space0 (tag (bs "\/")) space0).

(** tables.rs:109-125 [cell]. *)
Definition p_cell : parser (located cell) :=
  located_p (alt [ pmap cell_span_above CSpan;
                   pmap cell_span_left CSpan;
                   pmap column_align CAlign;
                   pmap (map_parser (take_line_until1 (bs "|")) container_inner) CContent ]).

(** tables.rs:78-90 [row]. *)
Definition p_row : parser (list (located cell)) :=
  terminated (delimited (pchar x7c) (separated_list1 (pchar x7c) (deeper p_cell)) (pchar x7c))
             end_of_line_or_input.

(** tables.rs:40-51: enumerate rows and cells. *)
Definition enum_row (r : nat) (cs : list (located cell)) : list (cellpos * located cell) :=
  map (fun p => (CellPos r (fst p), snd p)) (combine (seq 0 (length cs)) cs).
Definition enum_rows (rs : list (list (located cell))) : list (cellpos * located cell) :=
  flat_map (fun p => enum_row (fst p) (snd p)) (combine (seq 0 (length rs)) rs).

(** tables.rs:25-63 [table]. *)
Definition p_table : parser (located table) :=
  located_p (verify (fun s =>
    do (s1, x) <- pair space0 p_row s;;
    do (s2, rs) <- many0 (preceded space0 p_row) s1;;
    Ok s2 (table_new (enum_rows (snd x :: rs)) (non_empty (fst x))))
    (fun t => negb (forallb (is_divider_row t) (rows t)))).

(** tables.rs:70-75 [nested_table]. *)
Definition p_nested_table : parser (located table) :=
  pmap p_table (lmap (fun t => Table (t_cells t) (t_row_cnt t) (t_col_cnt t) false)).

(** * Lists *)

(** lists.rs:161-169 [indentation_level]. *)
Definition indentation_level (consume : bool) : parser nat :=
  if consume then pmap space0 remaining_len else pmap (peek space0) remaining_len.

(** lists.rs:172-184 [todo_status]. *)
Definition p_todo_status : parser todo_status :=
  fun s =>
    do (s1, _) <- tag (bs "[") s;;
    do (s2, a) <- alt [value TodoIncomplete (tag (bs " ")); value TodoPartial1 (tag (bs "."));
                       value TodoPartial2 (tag (bs "o")); value TodoPartial3 (tag (bs "O"));
                       value TodoComplete (tag (bs "X")); value TodoRejected (tag (bs "-"))] s1;;
    do (s3, _) <- tag (bs "] ") s2;;
    Ok s3 a.

(** lists.rs:207-216, 262-273. *)
Definition unordered_list_item_prefix : parser (item_ty * suffix) :=
  pmap (palt (value UHyphen (tag (bs "- "))) (value UAsterisk (tag (bs "* "))))
       (fun u => (TUnordered u, SufNone)).

(** lists.rs:239-259, 276-344. *)
Definition ordered_list_item_prefix : parser (item_ty * suffix) :=
  pmap (palt
    (pair (alt [value ONumber digit1;
                value OLowerRoman (many1 (one_of (bs "ivxlcdm")));
                value OUpperRoman (many1 (one_of (bs "IVXLEDM")));
                value OLowerAlpha (take_while1 is_lower);
                value OUpperAlpha (take_while1 is_upper)])
          (palt (value SufPeriod (tag (bs ". "))) (value SufParen (tag (bs ") ")))))
    (pair (value OPound (tag (bs "#"))) (value SufNone (tag (bs " ")))))
    (fun p => (TOrdered (fst p), snd p)).

(** lists.rs:187-196 [list_item_prefix]. *)
Definition list_item_prefix : parser (item_ty * suffix) :=
  palt unordered_list_item_prefix ordered_list_item_prefix.

(** lists.rs:116-156 [list_item_tail], given [nested_block_element]. *)
Definition list_item_tail_ (nested : parser (located block)) (indentation : nat)
  : parser (option todo_status * list (located block)) :=
  fun s =>
    do (s1, todo) <- opt p_todo_status s;;
    do (s2, content) <- deeper nested s1;;
    do (s3, contents) <- many0 (preceded
          (verify (indentation_level false) (fun l => indentation <? l))
          (deeper nested)) s2;;
    Ok s3 (todo, content :: contents).

(** lists.rs:72-113 [list_item].  [remaining.start_offset() -
    input.start_offset()] panics on underflow. *)
Definition list_item_ (nested : parser (located block)) : parser (nat * located list_item) :=
  fun s =>
    do (s1, _) <- beginning_of_line s;;
    do (s2, indentation) <- indentation_level true s1;;
    do (_, rem) <- recognize (pair rest_of_line
          (many0 (preceded (verify (indentation_level false) (fun l => indentation <? l))
                           rest_of_line))) s2;;
    do (rem1, item) <- located_p (pmap
          (pair list_item_prefix (list_item_tail_ nested indentation))
          (fun p => ListItem (fst (fst p)) (snd (fst p)) 0 (snd (snd p)) (fst (snd p)))) rem;;
    if sp_start rem1 <? sp_start s2 then Panic
    else Ok (advance_start_by (sp_start rem1 - sp_start s2) s2) (indentation, item).

(** lists.rs:48-56: positions are assigned while folding, starting at 1 after
    the first item. *)
Fixpoint assign_pos (i : nat) (items : list (located list_item)) : list (located list_item) :=
  match items with
  | [] => []
  | x :: xs => lmap (li_with_pos i) x :: assign_pos (i + 1) xs
  end.

(** elements/blocks/lists/mod.rs:112-125 [normalize]. *)
Definition normalize_list (items : list (located list_item)) : list (located list_item) :=
  match items with
  | [] => []
  | h :: t => h :: map (lmap (li_with_ty (li_ty (l_val h)))) t
  end.

(** lists.rs:25-68 [list]. *)
Definition list_ (nested : parser (located block)) : parser (located (list (located list_item))) :=
  located_p (fun s =>
    do (s1, ii) <- deeper (list_item_ nested) s;;
    do (s2, items) <- many0 (preceded
          (verify (indentation_level false) (fun l => l =? fst ii))
          (pmap (deeper (list_item_ nested)) snd)) s1;;
    Ok s2 (normalize_list (snd ii :: assign_pos 1 items))).

(** * Paragraphs *)

(** paragraphs.rs:45-52 [paragraph_line]. *)
Definition paragraph_line : parser container :=
  fun s => do (s1, _) <- space0 s;; container_inner s1.

(** paragraphs.rs:57-69 [continue_paragraph]. *)
Definition continue_paragraph_ (nested : parser (located block)) : parser unit :=
  fun s =>
    do (s1, _) <- pnot p_header s;;
    do (s2, _) <- pnot p_definition_list s1;;
    do (s3, _) <- pnot (list_ nested) s2;;
    do (s4, _) <- pnot p_table s3;;
    do (s5, _) <- pnot p_code_block s4;;
    do (s6, _) <- pnot p_math_block s5;;
    do (s7, _) <- pnot blank_line s6;;
    do (s8, _) <- pnot arrow_blockquote s7;;
    do (s9, _) <- pnot p_divider s8;;
    do (s10, _) <- pnot p_placeholder s9;;
    Ok s10 tt.

(** paragraphs.rs:23-43 [paragraph]. *)
Definition paragraph_ (nested : parser (located block)) : parser (located (list container)) :=
  located_p (many1 (delimited (continue_paragraph_ nested) paragraph_line end_of_line_or_input)).

(** * Block elements *)

(** blocks/mod.rs:49-63 [nested_block_element]. *)
Fixpoint nested_block_element (fuel : nat) : parser (located block) :=
  match fuel with
  | 0 => fun _ => OutOfFuel
  | S f => fun i =>
      alt [ pmap p_definition_list (lmap BDefList);
            pmap (list_ (nested_block_element f)) (lmap BList);
            pmap p_nested_table (lmap BTable);
            pmap p_code_block (lmap BCode);
            pmap p_math_block (lmap BMath);
            pmap arrow_blockquote (lmap BBlockquote);
            pmap (paragraph_ (nested_block_element f)) (lmap BParagraph) ] i
  end.

Definition p_nested : parser (located block) :=
  fun s => nested_block_element (S (remaining_len s)) s.
Definition p_list : parser (located (list (located list_item))) :=
  fun s => list_ (nested_block_element (S (remaining_len s))) s.
Definition p_paragraph : parser (located (list container)) :=
  fun s => paragraph_ (nested_block_element (S (remaining_len s))) s.

(** blocks/mod.rs:28-45 [top_level_block_element]. *)
Definition top_level_block_element : parser (located block) :=
  alt [ pmap p_header (lmap BHeader);
        pmap p_definition_list (lmap BDefList);
        pmap p_list (lmap BList);
        pmap p_table (lmap BTable);
        pmap p_code_block (lmap BCode);
        pmap p_math_block (lmap BMath);
        pmap p_blockquote (lmap BBlockquote);
        pmap p_divider (lmap (fun _ => BDivider));
        pmap p_placeholder (lmap BPlaceholder);
        pmap p_paragraph (lmap BParagraph) ].

(** vimwiki/mod.rs:20-27 [maybe_block_element]. *)
Definition maybe_block_element : parser (option (located block)) :=
  palt (value None blank_line) (pmap top_level_block_element Some).

Definition flatten_opt {A} (l : list (option A)) : list A :=
  flat_map (fun o => match o with Some x => [x] | None => [] end) l.

(** vimwiki/mod.rs:16-35 [page]. *)
Definition p_page : parser page :=
  pmap (all_consuming (many0 maybe_block_element)) flatten_opt.

(** Parsing a whole input, as [Language::from_vimwiki_str(s).parse()] does
    (lang/mod.rs, lang/from.rs: [page(Span::from(input))]). *)
Definition parse_page (input : str) : res page := p_page (span_of input).

End Block.
