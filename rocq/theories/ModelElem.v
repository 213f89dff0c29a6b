(** Methods of the element types of /repo/vimwiki-core/src/lang/elements that
    users call on a parsed document: textual forms, list numbering, todo
    progress, definition lookup, cell positions and link descriptions. *)
From Coq Require Import QArith.
From Verif Require Import Base ModelSpan ModelAst ModelTable ModelLink ModelBlock.
Local Open Scope nat_scope.

(** * [str::trim], [trim_end] (Unicode white space) *)

(** As [uws_len], but for the last character, the string being given
    reversed. *)
Definition uws_len_rev (l : str) : nat :=
  match l with
  | x09 :: _ | x0a :: _ | x0b :: _ | x0c :: _ | x0d :: _ | x20 :: _ => 1
  | x85 :: xc2 :: _ | xa0 :: xc2 :: _ => 2
  | x80 :: x9a :: xe1 :: _ => 3
  | x9f :: x81 :: xe2 :: _ => 3
  | x80 :: x80 :: xe3 :: _ => 3
  | b :: x80 :: xe2 :: _ =>
      if ((128 <=? byte_n b) && (byte_n b <=? 138)) || beqb b xa8 || beqb b xa9 || beqb b xaf
      then 3 else 0
  | _ => 0
  end.
Fixpoint drop_uws (len : str -> nat) (fuel : nat) (l : str) : str :=
  match fuel with
  | 0 => l
  | S f => match len l with
           | 0 => l
           | n => drop_uws len f (skipn n l)
           end
  end.
(** [str::trim_start], [str::trim_end], [str::trim]; the fuel is the length of
    the string, and every step drops at least one byte. *)
Definition str_trim_start (l : str) : str := drop_uws uws_len (length l) l.
Definition str_trim_end (l : str) : str := rev (drop_uws uws_len_rev (length l) (rev l)).
Definition str_trim (l : str) : str := str_trim_end (str_trim_start l).

(** * Decimal numbers *)

(** [to_string] of an unsigned integer. *)
Fixpoint uint_str (d : Decimal.uint) : str :=
  match d with
  | Decimal.Nil => []
  | Decimal.D0 d => x30 :: uint_str d
  | Decimal.D1 d => x31 :: uint_str d
  | Decimal.D2 d => x32 :: uint_str d
  | Decimal.D3 d => x33 :: uint_str d
  | Decimal.D4 d => x34 :: uint_str d
  | Decimal.D5 d => x35 :: uint_str d
  | Decimal.D6 d => x36 :: uint_str d
  | Decimal.D7 d => x37 :: uint_str d
  | Decimal.D8 d => x38 :: uint_str d
  | Decimal.D9 d => x39 :: uint_str d
  end.
Definition dec (n : N) : str := uint_str (N.to_uint n).
(** [{:0w}] padding with zeros on the left. *)
Definition pad0 (w : nat) (s : str) : str := repeat x30 (w - length s) ++ s.

(** [str::parse::<usize>] (64 bit): an optional plus sign, then one or more
    digits, no overflow. *)
Definition usize_bound : N := 18446744073709551616.
Fixpoint parse_digits (acc : N) (l : str) : option N :=
  match l with
  | [] => Some acc
  | b :: l' =>
      if is_digit b then
        let v := (10 * acc + N.of_nat (byte_n b - 48))%N in
        if (v <? usize_bound)%N then parse_digits v l' else None
      else None
  end.
Definition parse_usize (l : str) : option N :=
  match match l with x2b :: l' => l' | _ => l end with
  | [] => None
  | d => parse_digits 0 d
  end.

(** * Cell positions (blocks/tables.rs:25-69) *)

Inductive cellpos_result :=
| CpOk (p : cellpos) | CpTooFew | CpTooMany | CpBadRow | CpBadCol.

(** tables.rs:25 [Display]. *)
Definition cellpos_display (p : cellpos) : str :=
  dec (N.of_nat (cp_row p)) ++ bs "," ++ dec (N.of_nat (cp_col p)).

(** tables.rs:42-69 [FromStr]. *)
Definition cellpos_from_str (s : str) : cellpos_result :=
  match split_on x2c s with
  | _ :: _ :: _ :: _ => CpTooMany
  | [r; c] =>
      match parse_usize (str_trim r) with
      | None => CpBadRow
      | Some row =>
          match parse_usize (str_trim c) with
          | None => CpBadCol
          | Some col => CpOk (CellPos (N.to_nat row) (N.to_nat col))
          end
      end
  | _ => CpTooFew
  end.

(** * List items (blocks/lists/item.rs) *)

(** item.rs:252-258 [ListItemSuffix::as_char]. *)
Definition suffix_char (s : suffix) : str :=
  match s with SufNone => [] | SufPeriod => bs "." | SufParen => bs ")" end.

(** item.rs:457-482 [pos_to_alphabet].  [as u32] truncates.  Each round but
    the last divides the position by 26, so [fuel] never runs out. *)
Fixpoint alphabet_loop (fuel : nat) (base : nat) (i : N) (s : str) : str :=
  match fuel with
  | 0 => s
  | S f =>
      let offset := (i mod 26)%N in
      let s := s ++ [byte_of (base + N.to_nat offset)] in
      let i := (i - offset)%N in
      if (0 <? i)%N then alphabet_loop f base (i / 26 - 1)%N s else s
  end.
Definition pos_to_alphabet (pos : N) (lower : bool) : str :=
  let i := (pos mod 4294967296)%N in
  rev (alphabet_loop (S (N.size_nat i)) (if lower then 97 else 65) i []).

(** [(pos + 1) as i16]. *)
Definition as_i16 (n : Z) : Z :=
  let m := (n mod 65536)%Z in if (m <? 32768)%Z then m else (m - 65536)%Z.

Section Prefix.
(** [format!("{:x}", Roman::from(n))] and [{:X}] of the external crate
    numerals 0.1.4. *)
Variable roman : bool -> Z -> str.

(** item.rs:421-446 [OrderedListItemType::to_prefix]. *)
Definition ordered_prefix (o : ordered_ty) (pos : nat) (s : suffix) : str :=
  match o with
  | ONumber => dec (N.of_nat (pos + 1))
  | OPound => bs "#"
  | OLowerAlpha => pos_to_alphabet (N.of_nat pos) true
  | OUpperAlpha => pos_to_alphabet (N.of_nat pos) false
  | OLowerRoman => roman true (as_i16 (Z.of_nat pos + 1))
  | OUpperRoman => roman false (as_i16 (Z.of_nat pos + 1))
  end ++ suffix_char s.

(** item.rs:380-394 [UnorderedListItemType::to_prefix]. *)
Definition unordered_prefix (u : unordered_ty) (s : suffix) : str :=
  match u with
  | UHyphen => bs "-"
  | UAsterisk => bs "*"
  | UOther p => p ++ suffix_char s
  end.

(** item.rs:101-103, 306-311 [to_prefix]. *)
Definition li_prefix (i : list_item) : str :=
  match li_ty i with
  | TOrdered o => ordered_prefix o (li_pos i) (li_suffix i)
  | TUnordered u => unordered_prefix u (li_suffix i)
  end.
End Prefix.

(** item.rs:168-184 [to_todo_progress]; the [f32] values are rationals. *)
Definition todo_progress (t : option todo_status) : option Q :=
  match t with
  | None | Some TodoRejected => None
  | Some TodoPartial1 => Some (1 # 4)
  | Some TodoPartial2 => Some (1 # 2)
  | Some TodoPartial3 => Some (3 # 4)
  | Some TodoComplete => Some (1 # 1)
  | Some TodoIncomplete => Some (0 # 1)
  end%Q.

(** item.rs:119-157 [compute_todo_progress].  Simplification: sums and
    quotients are exact rationals where the code rounds to [f32]. *)
Fixpoint compute_todo_progress (i : list_item) : option Q :=
  match i with
  | ListItem _ _ _ contents todo =>
      match fold_left
              (fun acc c =>
                 match list_progress (l_val c) with
                 | Some (sum, count) =>
                     let '(sum, count) :=
                       match acc with
                       | Some (asum, acount) => (sum + asum, (count + acount)%nat)
                       | None => (sum, count)
                       end%Q in
                     if 0 <? count then Some (sum, count) else None
                 | None => acc
                 end)
              contents None with
      | Some (sum, count) => Some (sum / inject_Z (Z.of_nat count))%Q
      | None => todo_progress todo
      end
  end
with list_progress (b : block) : option (Q * nat) :=
  match b with
  | BList items =>
      Some (fold_left
              (fun acc it =>
                 match compute_todo_progress (l_val it) with
                 | Some p => ((fst acc + p)%Q, S (snd acc))
                 | None => acc
                 end)
              items (0%Q, 0))
  | _ => None
  end.

(** * Textual forms *)

(** typefaces.rs:418-435 [Keyword]'s [Display]. *)
Definition keyword_display (k : keyword) : str :=
  match k with
  | KTodo => bs "TODO" | KDone => bs "DONE" | KStarted => bs "STARTED"
  | KFixme => bs "FIXME" | KFixed => bs "FIXED" | KXxx => bs "XXX"
  end.

(** [NaiveDate]'s [Display] and [format("%Y-%m-%d")]: a four digit year, with
    an explicit sign outside 0..9999. *)
Definition date_display (d : date) : str :=
  (if (d_year d <? 0)%Z then bs "-" ++ pad0 4 (dec (Z.to_N (- d_year d)))
   else if (9999 <? d_year d)%Z then bs "+" ++ dec (Z.to_N (d_year d))
   else pad0 4 (dec (Z.to_N (d_year d))))
  ++ bs "-" ++ pad0 2 (dec (N.of_nat (d_month d)))
  ++ bs "-" ++ pad0 2 (dec (N.of_nat (d_day d))).

(** data.rs:226-235 [LinkData], description.rs:9-26 [Description]. *)
Fixpoint desc_display (d : description) : str :=
  match d with
  | DescText t => t
  | DescTransclusion l => link_data_display l
  end
with link_data_display (d : link_data) : str :=
  match d with
  | LinkData u (Some d) _ => desc_display d
  | LinkData u None _ => uri_display u
  end.

(** links/mod.rs:35-63 [Link]'s [Display]. *)
Definition link_display (l : link) : str :=
  match l with
  | LDiary dt d => match ld_desc d with Some x => desc_display x | None => date_display dt end
  | _ => link_data_display (link_get_data l)
  end.

(** typefaces.rs:88-106, 394-401. *)
Fixpoint dcontent_display (c : dcontent) : str :=
  match c with
  | DCText t => t
  | DCDeco _ cs => flat_map (fun x => dcontent_display (l_val x)) cs
  | DCKeyword k => keyword_display k
  | DCLink l => link_display l
  end.

(** comments.rs:9-25, 67, 137. *)
Definition comment_display (c : comment) : str :=
  match c with
  | CLine t => str_trim t
  | CMulti ls => join [b_nl] ls
  end.

(** tags.rs:60-79. *)
Definition tags_display (ts : list str) : str := flat_map (fun t => x3a :: t) ts ++ bs ":".

(** inline/mod.rs:25-40 [InlineElement]. *)
Definition inline_display (i : inline) : str :=
  match i with
  | IText t => t
  | IDeco _ cs => flat_map (fun x => dcontent_display (l_val x)) cs
  | IKeyword k => keyword_display k
  | ILink l => link_display l
  | ITags ts => tags_display ts
  | ICode t => t
  | IMath t => t
  | IComment c => comment_display c
  end.

(** inline/mod.rs:179-186 [InlineElementContainer]; also [DefinitionListValue]
    (definitions.rs:36). *)
Definition container_display (c : container) : str :=
  flat_map (fun x => inline_display (l_val x)) c.

(** definitions.rs:331-336 [DefinitionList::get]. *)
Definition def_get (d : def_list) (term : str) : option (located (list (located container))) :=
  match find (fun x => str_eqb (container_display (l_val (td_term (l_val x)))) term) d with
  | Some x => Some (td_defs (l_val x))
  | None => None
  end.

(** definitions.rs:346-355 [terms], [definitions]. *)
Definition def_terms (d : def_list) : list (located container) := map (fun x => td_term (l_val x)) d.
Definition def_definitions (d : def_list) : list (located container) :=
  flat_map (fun x => l_val (td_defs (l_val x))) d.

(** [String::from_utf8_lossy] as used by [decode_utf8_lossy]: a parameter of
    the functions below, because the replacement of invalid sequences is not
    modelled; it is the identity on valid UTF-8. *)

(** links/mod.rs:271-294 [to_description_or_fallback]. *)
Definition description_or_fallback (lossy : str -> str) (l : link) : option description :=
  match ld_desc (link_get_data l) with
  | Some d => Some d
  | None =>
      match l with
      | LRaw _ | LTransclusion _ => None
      | LDiary dt _ => Some (DescText (bs "diary:" ++ date_display dt))
      | _ => Some (DescText (lossy (percent_decode (uri_display (ld_uri (link_get_data l))))))
      end
  end.
