(** Pages as JSON text: the [Serialize] and [Deserialize] implementations that
    serde derives for the elements of /repo/vimwiki-core/src/lang/elements, and
    the part of serde_json 1.0 that vimwiki-cli/src/ast.rs:241-244, 294 and
    vimwiki-cli/src/subcommand/inspect.rs:19-40 use.

    Simplifications.  Numbers are unbounded, and only non-negative integers
    without fraction and exponent are read: nothing else is written, and a page
    in memory holds no number that does not fit its type.  The reader does not
    check that strings are UTF-8 and rejects "\u" escapes above 7f; only those
    below 20 are written.  A struct is read from an object only (serde also
    accepts an array of its fields, which is never written).  Reading is done
    in two steps, text to value and value to page; serde_json does both at
    once, which makes a difference for the error reported, and for the nesting
    of values of unknown fields, which are never written. *)
From Verif Require Import Base ModelSpan ModelAst ModelLink ModelElem.

(** * Values *)

(** The calls a [Serialize] implementation makes; [JStop]: the map of a
    flattened struct was begun, and then flattening failed (serde's
    [FlatMapSerializer]: "can only flatten structs and maps"). *)
Inductive json :=
| JNull
| JBool (b : bool)
| JNum (n : N)
| JStr (s : str)
| JArr (l : list json)
| JObj (fs : list (str * json))
| JStop.

(** No flattening failed. *)
Fixpoint whole (j : json) : bool :=
  match j with
  | JArr l => forallb whole l
  | JObj fs => forallb (fun kv => whole (snd kv)) fs
  | JStop => false
  | _ => true
  end.

(** How deep arrays and objects are nested. *)
Fixpoint jdepth (j : json) : nat :=
  match j with
  | JArr l => S (fold_right (fun x n => Nat.max (jdepth x) n) 0 l)
  | JObj fs => S (fold_right (fun kv n => Nat.max (jdepth (snd kv)) n) 0 fs)
  | _ => 0
  end.

(** * Text (serde_json ser.rs: [PrettyFormatter], [format_escaped_str]) *)

Definition hex_digit (n : nat) : byte := nth n (bs "0123456789abcdef") x30.
Definition escape (b : byte) : str :=
  match b with
  | x22 => [x5c; x22]
  | x5c => [x5c; x5c]
  | x08 => [x5c; x62]
  | x0c => [x5c; x66]
  | x0a => [x5c; x6e]
  | x0d => [x5c; x72]
  | x09 => [x5c; x74]
  | _ => if byte_n b <? 32 then [x5c; x75; x30; x30; hex_digit (byte_n b / 16); hex_digit (byte_n b mod 16)]
         else [b]
  end.
Definition jquote (s : str) : str := x22 :: flat_map escape s ++ [x22].
Fixpoint indent (k : nat) : str := match k with 0 => [] | S k => x20 :: x20 :: indent k end.

(** Text written so far, and whether writing can go on. *)
Definition wrote (s : str) : str * bool := (s, true).
Definition andthen (a b : str * bool) : str * bool :=
  if snd a then (fst a ++ fst b, snd b) else a.

(** [to_writer_pretty] at indentation [k]. *)
Fixpoint jprint (k : nat) (j : json) : str * bool :=
  match j with
  | JNull => wrote (bs "null")
  | JBool true => wrote (bs "true")
  | JBool false => wrote (bs "false")
  | JNum n => wrote (dec n)
  | JStr s => wrote (jquote s)
  | JArr [] => wrote (bs "[]")
  | JArr l =>
      andthen (wrote (bs "["))
        (andthen ((fix go (sep : str) (l : list json) : str * bool :=
                     match l with
                     | [] => wrote []
                     | x :: l' => andthen (wrote (sep ++ [x0a] ++ indent (S k))) (andthen (jprint (S k) x) (go [x2c] l'))
                     end) [] l)
           (wrote ([x0a] ++ indent k ++ [x5d])))
  | JObj [] => wrote (bs "{}")
  | JObj fs =>
      andthen (wrote (bs "{"))
        (andthen ((fix go (sep : str) (fs : list (str * json)) : str * bool :=
                     match fs with
                     | [] => wrote []
                     | (f, x) :: fs' => andthen (wrote (sep ++ [x0a] ++ indent (S k) ++ jquote f ++ [x3a; x20])) (andthen (jprint (S k) x) (go [x2c] fs'))
                     end) [] fs)
           (wrote ([x0a] ++ indent k ++ [x7d])))
  | JStop => (bs "{", false)
  end.

(** * Reading text (serde_json de.rs, read.rs) *)

(** read.rs [parse_whitespace]. *)
Definition json_ws (b : byte) : bool := match b with x20 | x0a | x09 | x0d => true | _ => false end.
Fixpoint skip_ws (s : str) : str :=
  match s with
  | b :: s' => if json_ws b then skip_ws s' else s
  | [] => []
  end.

(** read.rs [parse_str_bytes], [parse_escape], [decode_hex_escape]: the rest of
    a string whose opening quote has been read: its contents and what follows
    the closing quote.  A control character is an error. *)
Definition unescape (c : byte) : option byte :=
  match c with
  | x22 => Some x22 | x5c => Some x5c | x2f => Some x2f
  | x62 => Some x08 | x66 => Some x0c | x6e => Some x0a | x72 => Some x0d | x74 => Some x09
  | _ => None
  end.
Definition add_byte (b : byte) (x : option (str * str)) : option (str * str) :=
  match x with Some (t, r) => Some (b :: t, r) | None => None end.
Fixpoint jstring (s : str) : option (str * str) :=
  match s with
  | [] => None
  | b :: r =>
      if beqb b x22 then Some ([], r)
      else if beqb b x5c then
        match r with
        | [] => None
        | c :: r1 =>
            match unescape c with
            | Some x => add_byte x (jstring r1)
            | None =>
                match r1 with
                | z1 :: z2 :: h1 :: h2 :: r2 =>
                    if beqb c x75 && beqb z1 x30 && beqb z2 x30 then
                      match hex_val h1, hex_val h2 with
                      | Some a, Some b =>
                          if 16 * a + b <? 128 then add_byte (byte_of (16 * a + b)) (jstring r2) else None
                      | _, _ => None
                      end
                    else None
                | _ => None
                end
            end
        end
      else if byte_n b <? 32 then None
      else add_byte b (jstring r)
  end.

(** de.rs [parse_integer]: no leading zeros; a fraction or an exponent is not
    read, see above. *)
Definition digits_val (l : str) : N := fold_left (fun a b => (a * 10 + N.of_nat (byte_n b - 48))%N) l 0%N.
Definition jnumber (s : str) : option (json * str) :=
  let k := count_while is_digit s in
  let d := firstn k s in
  let r := skipn k s in
  if (1 <? k) && starts_with [x30] d then None
  else match r with
       | b :: _ => if existsb (beqb b) (bs ".eE") then None else Some (JNum (digits_val d), r)
       | [] => Some (JNum (digits_val d), r)
       end.

(** The text after white space and the byte [c], if these come next. *)
Definition next (c : byte) (s : str) : option str :=
  match skip_ws s with b :: r => if beqb b c then Some r else None | [] => None end.

(** de.rs [parse_value], [SeqAccess], [MapAccess].  [d]: the remaining depth
    (de.rs [check_recursion!]: an array or object is refused when the count
    becomes zero).  [f]: fuel; every second call reads at least one byte. *)
Definition enter (d : nat) : option nat := match d with S (S d) => Some (S d) | _ => None end.
Fixpoint jvalue (f d : nat) (s : str) : option (json * str) :=
  match f with
  | 0 => None
  | S f =>
      match skip_ws s with
      | [] => None
      | b :: r =>
          if beqb b x7b then
            match enter d with
            | Some d =>
                match next x7d r with
                | Some r => Some (JObj [], r)
                | None => match jmembers f d r with Some (l, r) => Some (JObj l, r) | None => None end
                end
            | None => None
            end
          else if beqb b x5b then
            match enter d with
            | Some d =>
                match next x5d r with
                | Some r => Some (JArr [], r)
                | None => match jelements f d r with Some (l, r) => Some (JArr l, r) | None => None end
                end
            | None => None
            end
          else if beqb b x22 then
            match jstring r with Some (t, r) => Some (JStr t, r) | None => None end
          else if is_digit b then jnumber (b :: r)
          else if starts_with (bs "null") (b :: r) then Some (JNull, skipn 3 r)
          else if starts_with (bs "true") (b :: r) then Some (JBool true, skipn 3 r)
          else if starts_with (bs "false") (b :: r) then Some (JBool false, skipn 4 r)
          else None
      end
  end
with jelements (f d : nat) (s : str) : option (list json * str) :=
  match f with
  | 0 => None
  | S f =>
      match jvalue f d s with
      | Some (x, r) =>
          match next x2c r with
          | Some r => match jelements f d r with Some (l, r) => Some (x :: l, r) | None => None end
          | None => match next x5d r with Some r => Some ([x], r) | None => None end
          end
      | None => None
      end
  end
with jmembers (f d : nat) (s : str) : option (list (str * json) * str) :=
  match f with
  | 0 => None
  | S f =>
      match next x22 s with
      | Some r =>
          match jstring r with
          | Some (k, r) =>
              match next x3a r with
              | Some r =>
                  match jvalue f d r with
                  | Some (x, r) =>
                      match next x2c r with
                      | Some r => match jmembers f d r with Some (l, r) => Some ((k, x) :: l, r) | None => None end
                      | None => match next x7d r with Some r => Some ([(k, x)], r) | None => None end
                      end
                  | None => None
                  end
              | None => None
              end
          | None => None
          end
      | None => None
      end
  end.

(** de.rs:2401-2413 [from_trait], [Deserializer::end]: only white space may
    follow; the depth limit is 128. *)
Definition jread (s : str) : option json :=
  match jvalue (2 * S (length s)) 128 s with
  | Some (j, r) => match skip_ws r with [] => Some j | _ => None end
  | None => None
  end.

(** * What the elements serialize to *)

Definition jpair (k : string) (j : json) : str * json := (bs k, j).
(** A variant of an adjacently tagged enum with and without data. *)
Definition jtag (t : string) (d : json) : json := JObj [jpair "type" (JStr (bs t)); jpair "data" d].
Definition junit (t : string) : json := JObj [jpair "type" (JStr (bs t))].
Definition jnat (n : nat) : json := JNum (N.of_nat n).
Definition jopt {A} (f : A -> json) (x : option A) : json := match x with Some a => f a | None => JNull end.
Definition jstrs (l : list str) : json := JArr (map JStr l).
Definition jmap (m : list (str * str)) : json := JObj (map (fun kv => (fst kv, JStr (snd kv))) m).
(** utils/region.rs:8-20. *)
Definition jregion (r : region) : json :=
  JObj [jpair "offset" (jnat (r_off r)); jpair "len" (jnat (r_len r)); jpair "depth" (jnat (r_depth r))].
(** utils/mod.rs:56-67: [Located], whose contents are flattened. *)
Definition jflat (j : json) (r : region) : json :=
  match j with
  | JObj fs => JObj (fs ++ [jpair "region" (jregion r)])
  | _ => JStop
  end.
Definition jloc {A} (f : A -> json) (x : located A) : json := jflat (f (l_val x)) (l_reg x).

Section Elements.
(** uriparse's and chrono's implementations. *)
Variable uri_json : uri -> json.
Variable date_str : date -> str.

(** links/data.rs:18-23, links/description.rs:22-26. *)
Fixpoint j_desc (x : description) : json :=
  match x with
  | DescText t => jtag "text" (JStr t)
  | DescTransclusion d => jtag "transclusion_link" (j_link_data d)
  end
with j_link_data (d : link_data) : json :=
  match d with
  | LinkData u x p =>
      JObj [jpair "uri_ref" (uri_json u);
            jpair "description" (match x with Some x => j_desc x | None => JNull end);
            jpair "properties" (jopt jmap p)]
  end.
Definition jdate (d : date) : json := JStr (date_str d).
(** links/mod.rs:34-63. *)
Definition j_link (l : link) : json :=
  match l with
  | LWiki d => jtag "wiki" (JObj [jpair "data" (j_link_data d)])
  | LIndexed i d => jtag "indexed_inter_wiki" (JObj [jpair "index" (JNum i); jpair "data" (j_link_data d)])
  | LNamed n d => jtag "named_inter_wiki" (JObj [jpair "name" (JStr n); jpair "data" (j_link_data d)])
  | LDiary dt d => jtag "diary" (JObj [jpair "date" (jdate dt); jpair "data" (j_link_data d)])
  | LRaw d => jtag "raw" (JObj [jpair "data" (j_link_data d)])
  | LTransclusion d => jtag "transclusion" (JObj [jpair "data" (j_link_data d)])
  end.
(** typefaces.rs:421-437. *)
Definition keyword_name (k : keyword) : string :=
  match k with
  | KTodo => "todo" | KDone => "done" | KStarted => "started"
  | KFixme => "fixme" | KFixed => "fixed" | KXxx => "xxx"
  end.
Definition j_keyword (k : keyword) : json := junit (keyword_name k).
(** typefaces.rs:206-213. *)
Definition deco_name (k : deco) : string :=
  match k with
  | Bold => "bold" | Italic => "italic" | Strikeout => "strikeout"
  | Superscript => "superscript" | Subscript => "subscript"
  end.
(** typefaces.rs:100-106. *)
Fixpoint j_dcontent (c : dcontent) : json :=
  match c with
  | DCText t => jtag "text" (JStr t)
  | DCDeco k cs => jtag "decorated_text" (jtag (deco_name k) (JArr (map (jloc j_dcontent) cs)))
  | DCKeyword k => jtag "keyword" (j_keyword k)
  | DCLink l => jtag "link" (j_link l)
  end.
(** comments.rs:21-25. *)
Definition j_comment (c : comment) : json :=
  match c with
  | CLine t => jtag "line" (JStr t)
  | CMulti ls => jtag "multi_line" (jstrs ls)
  end.
(** inline/mod.rs:28-42, 117-120. *)
Definition j_inline (i : inline) : json :=
  match i with
  | IText t => jtag "text" (JStr t)
  | IDeco k cs => jtag "decorated_text" (jtag (deco_name k) (JArr (map (jloc j_dcontent) cs)))
  | IKeyword k => jtag "keyword" (j_keyword k)
  | ILink l => jtag "link" (j_link l)
  | ITags ts => jtag "tags" (jstrs ts)
  | ICode t => jtag "code" (JStr t)
  | IMath t => jtag "math" (JStr t)
  | IComment c => jtag "comment" (j_comment c)
  end.
Definition j_cont (c : container) : json := JObj [jpair "elements" (JArr (map (jloc j_inline) c))].
(** headers.rs:25-36. *)
Definition j_header (h : header) : json :=
  JObj [jpair "content" (j_cont (h_content h)); jpair "level" (jnat (h_level h)); jpair "centered" (JBool (h_centered h))].
(** placeholders.rs:7-17. *)
Definition j_placeholder (p : placeholder) : json :=
  match p with
  | PTitle t => jtag "title" (JStr t)
  | PNoHtml => junit "no_html"
  | PTemplate t => jtag "template" (JStr t)
  | PDate d => jtag "date" (jdate d)
  | POther n v => jtag "other" (JObj [jpair "name" (JStr n); jpair "value" (JStr v)])
  end.
(** code.rs:19-32, math.rs:20-29. *)
Definition j_code (c : code_block) : json :=
  JObj [jpair "language" (jopt JStr (cb_lang c)); jpair "metadata" (jmap (cb_meta c)); jpair "lines" (jstrs (cb_lines c))].
Definition j_math (m : math_block) : json :=
  JObj [jpair "lines" (jstrs (mb_lines m)); jpair "environment" (jopt JStr (mb_env m))].
(** definitions.rs:38-42 (transparent), 154 (a sequence: it cannot be
    flattened into [Located]), 244-247, 304-307. *)
Definition j_term_defs (t : term_defs) : json :=
  JObj [jpair "term" (jloc j_cont (td_term t));
        jpair "definitions" (jloc (fun ds => JArr (map (jloc j_cont) ds)) (td_defs t))].
Definition j_def_list (d : def_list) : json := JObj [jpair "items" (JArr (map (jloc j_term_defs) d))].
(** tables.rs:26-32, 73-88 (the cells as a list of pairs), 361-366, 442-462. *)
Definition j_cellpos (p : cellpos) : json :=
  JObj [jpair "row" (jnat (cp_row p)); jpair "col" (jnat (cp_col p))].
Definition span_name (s : cell_span) : string := match s with FromLeft => "from_left" | FromAbove => "from_above" end.
Definition align_name (a : col_align) : string :=
  match a with AlNone => "none" | AlLeft => "left" | AlCenter => "center" | AlRight => "right" end.
Definition j_cell (c : cell) : json :=
  match c with
  | CContent c => jtag "content" (j_cont c)
  | CSpan s => jtag "span" (junit (span_name s))
  | CAlign a => jtag "align" (junit (align_name a))
  end.
Definition j_table (t : table) : json :=
  JObj [jpair "cells" (JArr (map (fun kv => JArr [j_cellpos (fst kv); jloc j_cell (snd kv)]) (t_cells t)));
        jpair "row_cnt" (jnat (t_row_cnt t)); jpair "col_cnt" (jnat (t_col_cnt t));
        jpair "centered" (JBool (t_centered t))].
(** lists/item.rs:28-44, 243-249, 274-279, 332-341, 404-419, 492-512, 523-528. *)
Definition suffix_name (s : suffix) : string :=
  match s with SufNone => "none" | SufPeriod => "period" | SufParen => "paren" end.
Definition ordered_name (o : ordered_ty) : string :=
  match o with
  | ONumber => "number" | OPound => "pound"
  | OLowerAlpha => "lowercase_alphabet" | OUpperAlpha => "uppercase_alphabet"
  | OLowerRoman => "lowercase_roman" | OUpperRoman => "uppercase_roman"
  end.
Definition j_item_ty (t : item_ty) : json :=
  match t with
  | TOrdered o => jtag "ordered" (junit (ordered_name o))
  | TUnordered UHyphen => jtag "unordered" (junit "hyphen")
  | TUnordered UAsterisk => jtag "unordered" (junit "asterisk")
  | TUnordered (UOther p) => jtag "unordered" (jtag "other" (JStr p))
  end.
Definition todo_name (t : todo_status) : string :=
  match t with
  | TodoIncomplete => "incomplete"
  | TodoPartial1 => "partially_complete1" | TodoPartial2 => "partially_complete2"
  | TodoPartial3 => "partially_complete3"
  | TodoComplete => "complete" | TodoRejected => "rejected"
  end.
Definition j_todo (t : todo_status) : json := junit (todo_name t).
(** blocks/mod.rs:35-47, lists/mod.rs:32-38, 189. *)
Fixpoint j_block (b : block) : json :=
  match b with
  | BBlockquote ls => jtag "blockquote" (JObj [jpair "lines" (jstrs ls)])
  | BDefList d => jtag "definition_list" (j_def_list d)
  | BDivider => jtag "divider" JNull
  | BHeader h => jtag "header" (j_header h)
  | BList items => jtag "list" (JObj [jpair "items" (JArr (map (jloc j_item) items))])
  | BMath m => jtag "math_block" (j_math m)
  | BParagraph ls => jtag "paragraph" (JObj [jpair "lines" (JArr (map j_cont ls))])
  | BPlaceholder p => jtag "placeholder" (j_placeholder p)
  | BCode c => jtag "code_block" (j_code c)
  | BTable t => jtag "table" (j_table t)
  end
with j_item (i : list_item) : json :=
  match i with
  | ListItem ty suf pos contents todo =>
      JObj [jpair "ty" (j_item_ty ty); jpair "suffix" (junit (suffix_name suf)); jpair "pos" (jnat pos);
            jpair "contents" (JArr (map (jloc j_block) contents));
            jpair "attributes" (JObj [jpair "todo_status" (jopt j_todo todo)])]
  end.
(** elements/mod.rs:36-42. *)
Definition j_page (p : page) : json := JObj [jpair "elements" (JArr (map (jloc j_block) p))].

(** ast.rs:294: what ends up in the cache file: all of the text, or what was
    written before the error. *)
Definition ser_page (p : page) : str := fst (jprint 0 (j_page p)).

(** * What the elements deserialize from *)

Variable uri_de : json -> option uri.
Variable date_de : str -> option date.

(** A field that has to be there, and one of an [Option] type; a repeated field
    is an error, an unknown one is ignored. *)
Definition fields (k : string) (j : json) : option (list json) :=
  match j with
  | JObj fs => Some (map snd (filter (fun kv => str_eqb (fst kv) (bs k)) fs))
  | _ => None
  end.
Definition need {A} (k : string) (f : json -> option A) (j : json) : option A :=
  match fields k j with Some [v] => f v | _ => None end.
Definition may {A} (k : string) (f : json -> option A) (j : json) : option (option A) :=
  match fields k j with
  | Some [] | Some [JNull] => Some None
  | Some [v] => match f v with Some x => Some (Some x) | None => None end
  | _ => None
  end.
Definition d_str (j : json) : option str := match j with JStr s => Some s | _ => None end.
Definition d_bool (j : json) : option bool := match j with JBool b => Some b | _ => None end.
Definition d_num (j : json) : option N := match j with JNum n => Some n | _ => None end.
Definition d_nat (j : json) : option nat := option_map N.to_nat (d_num j).
Definition d_unit (j : json) : option unit := match j with JNull => Some tt | _ => None end.
Fixpoint all_some {A} (l : list (option A)) : option (list A) :=
  match l with
  | [] => Some []
  | Some x :: l' => option_map (cons x) (all_some l')
  | None :: _ => None
  end.
Definition d_list {A} (f : json -> option A) (j : json) : option (list A) :=
  match j with JArr l => all_some (map f l) | _ => None end.
Definition d_map (j : json) : option (list (str * str)) :=
  match j with
  | JObj fs =>
      option_map collect_map (all_some (map (fun kv => option_map (fun v => (fst kv, v)) (d_str (snd kv))) fs))
  | _ => None
  end.
(** The tag of an adjacently tagged enum, its data for a variant with data, and
    whether the data is right for a variant without. *)
Definition tag_of (j : json) : option str := need "type" d_str j.
Definition data {A} (f : json -> option A) (j : json) : option A := need "data" f j.
Definition no_data (j : json) : bool :=
  match fields "data" j with Some [] | Some [JNull] => true | _ => false end.
(** The variant whose name is the tag. *)
Fixpoint pick {A} (t : str) (l : list (string * option A)) : option A :=
  match l with
  | [] => None
  | (n, x) :: l' => if str_eqb t (bs n) then x else pick t l'
  end.
Definition variant {A} (l : list (string * option A)) (j : json) : option A :=
  match tag_of j with Some t => pick t l | None => None end.
Definition unit_enum {A} (name : A -> string) (l : list A) (j : json) : option A :=
  if no_data j then variant (map (fun x => (name x, Some x)) l) j else None.
Definition d_region (j : json) : option region :=
  match need "offset" d_nat j, need "len" d_nat j, need "depth" d_nat j with
  | Some o, Some l, Some d => Some (Region o l d)
  | _, _, _ => None
  end.
Definition d_loc {A} (f : json -> option A) (j : json) : option (located A) :=
  match f j, need "region" d_region j with
  | Some x, Some r => Some (Loc x r)
  | _, _ => None
  end.
Definition d_date (j : json) : option date := match d_str j with Some s => date_de s | None => None end.

Fixpoint d_desc (f : nat) (j : json) : option description :=
  match f with
  | 0 => None
  | S f => variant [("text"%string, option_map DescText (data d_str j));
                    ("transclusion_link"%string, option_map DescTransclusion (data (d_link_data f) j))] j
  end
with d_link_data (f : nat) (j : json) : option link_data :=
  match f with
  | 0 => None
  | S f =>
      match need "uri_ref" uri_de j, may "description" (d_desc f) j, may "properties" d_map j with
      | Some u, Some x, Some p => Some (LinkData u x p)
      | _, _, _ => None
      end
  end.
Definition with_data {A} (f : nat) (mk : link_data -> A) (j : json) : option A :=
  option_map mk (need "data" (d_link_data f) j).
Definition d_link (f : nat) (j : json) : option link :=
  variant
    [("wiki"%string, data (with_data f LWiki) j);
     ("indexed_inter_wiki"%string,
        data (fun j => match need "index" d_num j with Some i => with_data f (LIndexed i) j | None => None end) j);
     ("named_inter_wiki"%string,
        data (fun j => match need "name" d_str j with Some n => with_data f (LNamed n) j | None => None end) j);
     ("diary"%string,
        data (fun j => match need "date" d_date j with Some d => with_data f (LDiary d) j | None => None end) j);
     ("raw"%string, data (with_data f LRaw) j);
     ("transclusion"%string, data (with_data f LTransclusion) j)] j.
Definition d_keyword (j : json) : option keyword :=
  unit_enum keyword_name [KTodo; KDone; KStarted; KFixme; KFixed; KXxx] j.
Definition d_deco {A} (f : json -> option A) (j : json) : option (deco * list (located A)) :=
  variant (map (fun k => (deco_name k, option_map (pair k) (data (d_list (d_loc f)) j)))
             [Bold; Italic; Strikeout; Superscript; Subscript]) j.
Fixpoint d_dcontent (f : nat) (j : json) : option dcontent :=
  match f with
  | 0 => None
  | S f =>
      variant
        [("text"%string, option_map DCText (data d_str j));
         ("decorated_text"%string, option_map (fun x => DCDeco (fst x) (snd x)) (data (d_deco (d_dcontent f)) j));
         ("keyword"%string, option_map DCKeyword (data d_keyword j));
         ("link"%string, option_map DCLink (data (d_link f) j))] j
  end.
Definition d_comment (j : json) : option comment :=
  variant [("line"%string, option_map CLine (data d_str j));
           ("multi_line"%string, option_map CMulti (data (d_list d_str) j))] j.
Definition d_inline (f : nat) (j : json) : option inline :=
  variant
    [("text"%string, option_map IText (data d_str j));
     ("decorated_text"%string, option_map (fun x => IDeco (fst x) (snd x)) (data (d_deco (d_dcontent f)) j));
     ("keyword"%string, option_map IKeyword (data d_keyword j));
     ("link"%string, option_map ILink (data (d_link f) j));
     ("tags"%string, option_map ITags (data (d_list d_str) j));
     ("code"%string, option_map ICode (data d_str j));
     ("math"%string, option_map IMath (data d_str j));
     ("comment"%string, option_map IComment (data d_comment j))] j.
Definition d_cont (f : nat) (j : json) : option container := need "elements" (d_list (d_loc (d_inline f))) j.
Definition d_header (f : nat) (j : json) : option header :=
  match need "content" (d_cont f) j, need "level" d_nat j, need "centered" d_bool j with
  | Some c, Some l, Some b => Some (Header c l b)
  | _, _, _ => None
  end.
Definition d_placeholder (j : json) : option placeholder :=
  variant
    [("title"%string, option_map PTitle (data d_str j));
     ("no_html"%string, if no_data j then Some PNoHtml else None);
     ("template"%string, option_map PTemplate (data d_str j));
     ("date"%string, option_map PDate (data d_date j));
     ("other"%string,
        data (fun j => match need "name" d_str j, need "value" d_str j with
                       | Some n, Some v => Some (POther n v)
                       | _, _ => None
                       end) j)] j.
Definition d_code (j : json) : option code_block :=
  match may "language" d_str j, need "metadata" d_map j, need "lines" (d_list d_str) j with
  | Some l, Some m, Some ls => Some (CodeBlock l m ls)
  | _, _, _ => None
  end.
Definition d_math (j : json) : option math_block :=
  match need "lines" (d_list d_str) j, may "environment" d_str j with
  | Some ls, Some e => Some (MathBlock ls e)
  | _, _ => None
  end.
(** A sequence cannot be read from the fields left over by [Located] either
    (serde's [FlatMapDeserializer]). *)
Definition d_term_defs (f : nat) (j : json) : option term_defs :=
  match need "term" (d_loc (d_cont f)) j,
        need "definitions" (d_loc (fun _ => @None (list (located container)))) j with
  | Some t, Some d => Some (TermDefs t d)
  | _, _ => None
  end.
Definition d_cellpos (j : json) : option cellpos :=
  match need "row" d_nat j, need "col" d_nat j with
  | Some r, Some c => Some (CellPos r c)
  | _, _ => None
  end.
Definition d_cell (f : nat) (j : json) : option cell :=
  variant
    [("content"%string, option_map CContent (data (d_cont f) j));
     ("span"%string, option_map CSpan (data (unit_enum span_name [FromLeft; FromAbove]) j));
     ("align"%string, option_map CAlign (data (unit_enum align_name [AlNone; AlLeft; AlCenter; AlRight]) j))] j.
(** serde_with [map_as_tuple_list]: a later pair replaces an earlier one with
    the same position. *)
Fixpoint pos_insert (k : cellpos) (v : located cell) (m : list (cellpos * located cell)) : list (cellpos * located cell) :=
  match m with
  | [] => [(k, v)]
  | (k', v') :: m' => if cellpos_eqb k k' then (k, v) :: m' else (k', v') :: pos_insert k v m'
  end.
Definition pos_collect (l : list (cellpos * located cell)) : list (cellpos * located cell) :=
  fold_left (fun m kv => pos_insert (fst kv) (snd kv) m) l [].
Definition d_entry (f : nat) (j : json) : option (cellpos * located cell) :=
  match j with
  | JArr [k; v] =>
      match d_cellpos k, d_loc (d_cell f) v with Some k, Some v => Some (k, v) | _, _ => None end
  | _ => None
  end.
Definition d_table (f : nat) (j : json) : option table :=
  match need "cells" (d_list (d_entry f)) j, need "row_cnt" d_nat j, need "col_cnt" d_nat j, need "centered" d_bool j with
  | Some cs, Some r, Some c, Some b => Some (Table (pos_collect cs) r c b)
  | _, _, _, _ => None
  end.
Definition d_item_ty (j : json) : option item_ty :=
  variant
    [("ordered"%string,
        option_map TOrdered
          (data (unit_enum ordered_name [ONumber; OPound; OLowerAlpha; OUpperAlpha; OLowerRoman; OUpperRoman]) j));
     ("unordered"%string,
        option_map TUnordered
          (data (fun j => variant [("hyphen"%string, if no_data j then Some UHyphen else None);
                                   ("asterisk"%string, if no_data j then Some UAsterisk else None);
                                   ("other"%string, option_map UOther (data d_str j))] j) j))] j.
Definition d_todo (j : json) : option todo_status :=
  unit_enum todo_name [TodoIncomplete; TodoPartial1; TodoPartial2; TodoPartial3; TodoComplete; TodoRejected] j.
Fixpoint d_block (f : nat) (j : json) : option block :=
  match f with
  | 0 => None
  | S f =>
      variant
        [("blockquote"%string, option_map BBlockquote (data (need "lines" (d_list d_str)) j));
         ("code_block"%string, option_map BCode (data d_code j));
         ("definition_list"%string, option_map BDefList (data (need "items" (d_list (d_loc (d_term_defs f)))) j));
         ("divider"%string, option_map (fun _ => BDivider) (data d_unit j));
         ("header"%string, option_map BHeader (data (d_header f) j));
         ("list"%string, option_map BList (data (need "items" (d_list (d_loc (d_item f)))) j));
         ("math_block"%string, option_map BMath (data d_math j));
         ("paragraph"%string, option_map BParagraph (data (need "lines" (d_list (d_cont f))) j));
         ("placeholder"%string, option_map BPlaceholder (data d_placeholder j));
         ("table"%string, option_map BTable (data (d_table f) j))] j
  end
with d_item (f : nat) (j : json) : option list_item :=
  match f with
  | 0 => None
  | S f =>
      match need "ty" d_item_ty j, need "suffix" (unit_enum suffix_name [SufNone; SufPeriod; SufParen]) j,
            need "pos" d_nat j, need "contents" (d_list (d_loc (d_block f))) j,
            need "attributes" (may "todo_status" d_todo) j with
      | Some t, Some s, Some p, Some c, Some a => Some (ListItem t s p c a)
      | _, _, _, _, _ => None
      end
  end.
Definition d_page (j : json) : option page :=
  need "elements" (d_list (d_loc (d_block (jdepth j)))) j.

(** ast.rs:241-244: [from_reader]. *)
Definition de_page (s : str) : option page :=
  match jread s with Some j => d_page j | None => None end.
End Elements.
