(** Inline parsers: /repo/vimwiki-core/src/lang/parsers/vimwiki/blocks/inline.

    Two external parsers are parameters of the whole parser model:
    [uri_parse] stands for [uriparse::URIReference::try_from] and [date_parse]
    for [chrono::NaiveDate::parse_from_str(_, "%Y-%m-%d")].  Every theorem
    about the parser holds for all such functions.

    Recursive parsers take fuel.  [decorated_text] and [transclusion_link]
    recurse on strictly shorter spans, so fuel larger than the remaining
    length suffices; [OutOfFuel] is proved unreachable. *)
From Verif Require Import Base ModelSpan ModelComb ModelAst ModelLink.

(** Rust [str::parse::<u32>]: optional '+', then decimal digits, at most
    4294967295. *)
Definition parse_digits (l : str) : option N :=
  match l with
  | [] => None
  | _ => if forallb is_digit l
         then Some (fold_left (fun a b => (a * 10 + N.of_nat (byte_n b - 48))%N) l 0%N)
         else None
  end.
Definition parse_u32 (l : str) : option N :=
  let body := match l with b :: l' => if beqb b x2b then l' else l | [] => l end in
  match parse_digits body with
  | Some n => if (n <=? 4294967295)%N then Some n else None
  | None => None
  end.

Section Inline.
Variable uri_parse : str -> option uri.
Variable date_parse : str -> option date.

Definition pct2 : str := bs "%%".

(** inline/comments.rs:30-40 [line_comment]. *)
Definition line_comment : parser (located comment) :=
  located_p (fun s =>
    do (s1, _) <- tag pct2 s;;
    do (s2, t) <- map_parser take_until_end_of_line_or_input cow_str s1;;
    Ok s2 (CLine t)).

(** inline/comments.rs:47-63, the lines of a multi line comment. *)
Definition comment_lines : parser (list str) :=
  fun s =>
    do (s1, lines) <- many0 (terminated (map_parser take_until_end_of_line_or_input cow_str)
                                        line_ending) s;;
    do (s2, remaining) <- rest_len s1;;
    if 0 <? remaining then
      do (s3, last_line) <- map_parser rest cow_str s2;; Ok s3 (lines ++ [last_line])
    else Ok s2 lines.

(** inline/comments.rs:42-71 [multi_line_comment]. *)
Definition multi_line_comment : parser (located comment) :=
  located_p (fun s =>
    do (s1, _) <- tag (bs "%%+") s;;
    do (s2, lines) <- map_parser (take_until (bs "+%%")) comment_lines s1;;
    do (s3, _) <- tag (bs "+%%") s2;;
    Ok s3 (CMulti lines)).

(** inline/comments.rs:20-28 [comment]. *)
Definition p_comment : parser (located comment) := palt multi_line_comment line_comment.

(** inline/code.rs:13-25 [code_inline]. *)
Definition code_inline : parser (located str) :=
  located_p (map_parser (not_contains pct2 (surround_in_line1 (bs "`") (bs "`"))) cow_str).

(** inline/math.rs:17-35 [math_inline]. *)
Definition math_inline : parser (located str) :=
  located_p (map_parser
    (delimited (pchar x24) (not_contains pct2 (take_line_until1 (bs "$"))) (pchar x24))
    cow_str).

(** inline/tags.rs:29-35 [tag_content]. *)
Definition tag_content : parser str :=
  map_parser (take_line_until_one_of_three1 (bs ":") (bs " ") [b_tab]) cow_str.

(** inline/tags.rs:17-27 [tags]. *)
Definition tags : parser (located (list str)) :=
  located_p (map_parser whole_word (fun s =>
    do (s1, _) <- pchar x3a s;;
    do (s2, contents) <- many1 (terminated tag_content (pchar x3a)) s1;;
    Ok s2 contents)).

(** * Links *)

(** utils/convert.rs:78-88 [uri_ref]. *)
Definition uri_ref : parser uri :=
  map_opt (recognize (many1 (pair (pnot single_multispace) anychar)))
          (fun sp => uri_parse (remaining sp)).

(** links/raw.rs:18-23: the schemes a raw link may have.
    [Scheme::as_str]. *)
Definition raw_schemes : list str :=
  [bs "http"; bs "https"; bs "ftp"; bs "file"; bs "local"; bs "mailto"].
Definition is_raw_scheme (u : uri) : bool :=
  match u_scheme u with
  | Some s => existsb (str_eqb s) raw_schemes
  | None => false
  end.

(** links/raw.rs:10-29 [raw_link]. *)
Definition raw_link : parser (located link) :=
  located_p (fun s =>
    do (s1, u) <- verify uri_ref is_raw_scheme s;; Ok s1 (LRaw (LinkData u None None))).

(** links/mod.rs:99-122 [link_uri_ref]. *)
Definition link_uri_ref : parser uri :=
  fun s =>
    do (s1, us) <- take_line_until_one_of_three1 (bs "|") (bs "]]") (bs "}}") s;;
    match uri_parse (remaining us) with
    | Some u => Ok s1 u
    | None => match uri_parse (encode_uri (remaining us)) with
              | Some u => Ok s1 u
              | None => Err
              end
    end.

(** links/mod.rs:146-150 [link_anchor]. *)
Definition link_anchor : parser anchor :=
  map_opt (take_line_until (bs "|")) (fun sp => anchor_from_fragment (remaining sp)).

(** links/mod.rs:155-176 [link_properties]. *)
Definition link_properties : parser (list (str * str)) :=
  fun s =>
    do (s1, _) <- tag (bs "|") s;;
    pmap (separated_list1 space1
            (separated_pair
               (map_parser (take_line_until1 (bs "=")) cow_str)
               (tag (bs "="))
               (map_parser (delimited (tag [x22]) (take_line_until [x22]) (tag [x22])) cow_str)))
         collect_map s1.

(** links/mod.rs:129-144 [link_description], given the transclusion parser. *)
Definition link_description_ (transclusion : parser (located link)) : parser description :=
  fun s =>
    do (s1, _) <- tag (bs "|") s;;
    map_parser (take_line_until (bs "|"))
      (palt (pmap transclusion (fun l => DescTransclusion (link_get_data (l_val l))))
            (pmap rest (fun sp => DescText (remaining sp)))) s1.

(** links/mod.rs:84-93 [link_data]. *)
Definition link_data_ (transclusion : parser (located link)) : parser link_data :=
  fun s =>
    do (s1, u) <- link_uri_ref s;;
    do (s2, d) <- opt (link_description_ transclusion) s1;;
    do (s3, p) <- opt link_properties s2;;
    Ok s3 (LinkData u d p).

(** links/transclusion.rs:11-24 [transclusion_link]. *)
Fixpoint transclusion_link (fuel : nat) : parser (located link) :=
  match fuel with
  | 0 => fun _ => OutOfFuel
  | S f => fun i =>
      located_p (map_parser (not_contains pct2 (surround_in_line1 (bs "{{") (bs "}}")))
        (fun s => do (s1, d) <- link_data_ (transclusion_link f) s;; Ok s1 (LTransclusion d))) i
  end.
(** Enough fuel for the given span. *)
Definition p_transclusion : parser (located link) :=
  fun s => transclusion_link (S (remaining_len s)) s.
Definition link_description : parser description := link_description_ p_transclusion.
Definition p_link_data : parser link_data := link_data_ p_transclusion.

Definition bracket_link {A} (inner : parser A) : parser (located A) :=
  located_p (map_parser (not_contains pct2 (surround_in_line1 (bs "[[") (bs "]]"))) inner).

(** links/wiki.rs:12-25 [wiki_link]. *)
Definition wiki_link : parser (located link) :=
  bracket_link (fun s => do (s1, d) <- p_link_data s;; Ok s1 (LWiki d)).

(** links/mod.rs:157-180 (elements) [Link::new_diary_link]: [unwrap] panics
    when the encoded anchor is not a URI reference. *)
Definition new_diary_link (d : date) (desc : option description) (a : option anchor)
  : option link :=
  let frag := match a with Some a => anchor_to_fragment a | None => [] end in
  match uri_parse frag with
  | Some u => Some (LDiary d (LinkData u desc None))
  | None => None
  end.

(** links/diary.rs:18-52 [diary_link]. *)
Definition diary_link : parser (located link) :=
  bracket_link (fun s =>
    do (s1, _) <- tag (bs "diary:") s;;
    do (s2, d) <- map_opt (take_line_until_one_of_two1 (bs "|") (bs "#"))
                          (fun sp => date_parse (remaining sp)) s1;;
    do (s3, a) <- opt link_anchor s2;;
    do (s4, desc) <- opt link_description s3;;
    match new_diary_link d desc a with
    | Some l => Ok s4 l
    | None => Panic
    end).

(** links/interwiki.rs:45-50 [indexed_link_index]. *)
Definition indexed_link_index : parser N :=
  map_opt (delimited (tag (bs "wiki")) (take_line_until1 (bs ":")) (tag (bs ":")))
          (fun sp => parse_u32 (remaining sp)).

(** links/interwiki.rs:19-43 [indexed_interwiki_link]. *)
Definition indexed_interwiki_link : parser (located link) :=
  bracket_link (fun s =>
    do (s1, i) <- indexed_link_index s;;
    do (s2, u) <- link_uri_ref s1;;
    do (s3, d) <- opt link_description s2;;
    Ok s3 (LIndexed i (LinkData u d None))).

(** links/interwiki.rs:78-83 [named_link_name]. *)
Definition named_link_name : parser str :=
  map_parser (delimited (tag (bs "wn.")) (take_line_until1 (bs ":")) (tag (bs ":"))) cow_str.

(** links/interwiki.rs:52-76 [named_interwiki_link]. *)
Definition named_interwiki_link : parser (located link) :=
  bracket_link (fun s =>
    do (s1, n) <- named_link_name s;;
    do (s2, u) <- link_uri_ref s1;;
    do (s3, d) <- opt link_description s2;;
    Ok s3 (LNamed n (LinkData u d None))).

(** links/mod.rs:57-78 [link]. *)
Definition p_link : parser (located link) :=
  alt [diary_link; indexed_interwiki_link; named_interwiki_link; wiki_link; raw_link;
       p_transclusion].

(** * Text *)

(** inline/typefaces.rs:229-246 [keyword]. *)
Definition p_keyword : parser (located keyword) :=
  located_p (alt [value KDone (tag (bs "DONE")); value KFixed (tag (bs "FIXED"));
                  value KFixme (tag (bs "FIXME")); value KStarted (tag (bs "STARTED"));
                  value KTodo (tag (bs "TODO")); value KXxx (tag (bs "XXX"))]).

(** inline/typefaces.rs:69-85: backtrack to just after the last consumed
    whitespace and try a raw link there. *)
Definition raw_link_backtrack : parser (located link) :=
  preceded (peek (pchar x3a)) (fun s =>
    raw_link (backtrack_start_by
                (count_while (fun b => negb (is_ascii_ws b)) (rev (consumed s))) s)).

(** inline/typefaces.rs:33-89 [non_text], given [decorated_text]. *)
Definition non_text_ (dec : parser (located decorated)) : parser (located inline) :=
  alt [ pmap (preceded (peek (pchar x25)) p_comment) (lmap IComment);
        pmap (preceded (peek (pchar x60)) code_inline) (lmap ICode);
        pmap (preceded (peek (pchar x24)) math_inline) (lmap IMath);
        pmap (preceded (peek (pchar x3a)) tags) (lmap ITags);
        pmap (preceded (peek (palt (pchar x5b) (pchar x7b))) p_link) (lmap ILink);
        pmap (preceded (peek (alt [pchar x2a; pchar x5f; pchar x7e; pchar x5e; pchar x2c])) dec)
             (lmap (fun d => IDeco (fst d) (snd d)));
        pmap p_keyword (lmap IKeyword);
        pmap raw_link_backtrack (lmap ILink) ].

(** inline/typefaces.rs:95-117: the loop of [text], returning the final
    length.  [len -= ...] panics on underflow in a debug build. *)
Fixpoint text_loop (fuel : nat) (non_text : parser (located inline)) (ti : span) (len : nat)
  : res nat :=
  match fuel with
  | 0 => OutOfFuel
  | S f =>
      match remaining ti with
      | [] => Ok ti len
      | b :: r =>
          if is_nl b || (beqb b b_cr && starts_with nl_str r) then Ok ti len
          else match non_text ti with
               | Ok _ x =>
                   let st := r_off (l_reg x) in
                   if st <? sp_start ti then
                     if len <? sp_start ti - st then Panic
                     else Ok ti (len - (sp_start ti - st))
                   else Ok ti len
               | Err => text_loop f non_text (advance_start_by 1 ti) (len + 1)
               | Panic => Panic
               | OutOfFuel => OutOfFuel
               end
      end
  end.

(** inline/typefaces.rs:32-128 [text], given [non_text]. *)
Definition text_ (non_text : parser (located inline)) : parser (located str) :=
  located_p (fun s =>
    do (_, len) <- text_loop (S (remaining_len s)) non_text s 0;;
    if 0 <? len then Ok (advance_start_by len s) (remaining (with_length len s))
    else Err).

(** inline/typefaces.rs:209-226 [decorated_text_contents], given
    [decorated_text]. *)
Definition decorated_text_contents_ (dec : parser (located decorated))
  : parser (list (located dcontent)) :=
  many1 (alt [ pmap p_link (lmap DCLink);
               pmap p_keyword (lmap DCKeyword);
               pmap dec (lmap (fun d => DCDeco (fst d) (snd d)));
               pmap (text_ (non_text_ dec)) (lmap DCText) ]).

(** inline/typefaces.rs:144-207: one decoration. *)
Definition deco_text (k : deco) (delim : str) (dec : parser (located decorated))
  : parser decorated :=
  pmap (map_parser (not_contains pct2 (surround_in_line1 delim delim))
                   (deeper (decorated_text_contents_ dec)))
       (fun cs => (k, cs)).

(** inline/typefaces.rs:131-142 [decorated_text]. *)
Fixpoint decorated_text (fuel : nat) : parser (located decorated) :=
  match fuel with
  | 0 => fun _ => OutOfFuel
  | S f => fun i =>
      located_p (alt [ deco_text Bold (bs "*") (decorated_text f);
                       deco_text Italic (bs "_") (decorated_text f);
                       deco_text Strikeout (bs "~~") (decorated_text f);
                       deco_text Superscript (bs "^") (decorated_text f);
                       deco_text Subscript (bs ",,") (decorated_text f) ]) i
  end.
Definition p_decorated : parser (located decorated) :=
  fun s => decorated_text (S (remaining_len s)) s.
Definition non_text : parser (located inline) := non_text_ p_decorated.
Definition p_text : parser (located str) := text_ non_text.

(** inline/mod.rs:34-53 [inline_element]. *)
Definition inline_element : parser (located inline) :=
  alt [ pmap p_comment (lmap IComment);
        pmap math_inline (lmap IMath);
        pmap code_inline (lmap ICode);
        pmap tags (lmap ITags);
        pmap p_link (lmap ILink);
        pmap p_decorated (lmap (fun d => IDeco (fst d) (snd d)));
        pmap p_keyword (lmap IKeyword);
        pmap p_text (lmap IText) ].

(** inline/mod.rs:20-30 [inline_element_container]. *)
Definition inline_element_container : parser (located container) :=
  located_p (many1 (deeper inline_element)).

End Inline.
