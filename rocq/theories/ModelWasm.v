(** The JavaScript bindings: /repo/vimwiki-wasm/src/elements.rs, as far as it
    does more than pass values on.  JavaScript's [Date] follows ECMAScript
    (sections "MakeDay" and "Date constructor"); chrono's [NaiveDate::from_ymd]
    is modelled by its documented range and panic. *)
From Verif Require Import Base ModelSpan ModelComb ModelAst ModelTable ModelLink ModelElem ModelJson.
From Coq Require Import ZArith.
Local Open Scope Z_scope.

(** * Dates *)

(** ECMAScript: days of the year before a month (0 to 11), and the day number
    of the first day of a year, counted from 1970-01-01. *)
Definition js_leap (y : Z) : bool := (y mod 4 =? 0) && (negb (y mod 100 =? 0) || (y mod 400 =? 0)).
Definition js_before (y m : Z) : Z :=
  let f := if js_leap y then 1 else 0 in
  match m with
  | 0 => 0 | 1 => 31 | 2 => 59 + f | 3 => 90 + f | 4 => 120 + f | 5 => 151 + f
  | 6 => 181 + f | 7 => 212 + f | 8 => 243 + f | 9 => 273 + f | 10 => 304 + f | _ => 334 + f
  end.
Definition js_year (y : Z) : Z :=
  365 * (y - 1970) + (y - 1969) / 4 - (y - 1901) / 100 + (y - 1601) / 400.
(** MakeDay. *)
Definition make_day (y m d : Z) : Z :=
  let ym := y + m / 12 in js_year ym + js_before ym (m mod 12) + d - 1.
(** [new Date(y, m, d)]: the number of the local day on which it falls; years
    up to 99 are counted from 1900, and dates too far away are invalid. *)
Definition js_new_date (y m d : Z) : option Z :=
  let n := make_day (if (0 <=? y) && (y <=? 99) then 1900 + y else y) m d in
  if (Z.abs n <=? 100000000) then Some n else None.

(** elements.rs:891-903 [Placeholder::date]: chrono counts months from 1. *)
Definition placeholder_js_date (p : placeholder) : option (option Z) :=
  match p with
  | PDate x => Some (js_new_date (d_year x mod 4294967296) (Z.of_nat (d_month x)) (Z.of_nat (d_day x)))
  | _ => None
  end.

(** chrono: [NaiveDate::from_ymd], [None] where it panics. *)
Definition naive_month_days (y : Z) (m : nat) : nat :=
  match m with
  | 1 | 3 | 5 | 7 | 8 | 10 | 12 => 31
  | 4 | 6 | 9 | 11 => 30
  | 2 => if js_leap y then 29 else 28
  | _ => 0
  end%nat.
Definition naive_from_ymd (y : Z) (m d : nat) : option date :=
  if (-262144 <=? y) && (y <=? 262143) && (1 <=? d)%nat && (d <=? naive_month_days y m)%nat then Some (Date y m d) else None.
(** elements.rs:1336-1348: the date of [Link::new_diary_link], given what the
    JavaScript date answers to [getUTCFullYear], [getUTCMonth] (0 to 11) and
    [getUTCDate]. *)
Definition diary_link_date (utc_year : Z) (utc_month utc_date : nat) : option date :=
  naive_from_ymd utc_year utc_month utc_date.
Local Close Scope Z_scope.

(** * Descriptions *)

Section Uri.
Variable uri_parse : str -> option uri.
(** elements.rs:1287-1288 (also 1307, 1328, 1349, 1383): a description is a
    link to something shown in its place if it can be read as a URI reference;
    description.rs:36-42, data.rs:247-255. *)
Definition js_description (s : str) : description :=
  match uri_parse s with
  | Some u => DescTransclusion (LinkData u None None)
  | None => DescText s
  end.
(** elements.rs:1278-1293 [new_wiki_link]; [None] is the error. *)
Definition js_wiki_link (uri desc : str) : option link :=
  option_map (fun u => LWiki (LinkData u (Some (js_description desc)) None)) (uri_parse uri).
End Uri.

(** * Tables *)

(** elements.rs:939-969 [Table::new]: [None] stands for a row that is not an
    array, and for an entry that is not a [Cell]. *)
Definition js_row (r : nat) (row : list (option (located cell))) : list (cellpos * located cell) :=
  let cells := flat_map (fun x => match x with Some c => [c] | None => [] end) row in
  combine (map (CellPos r) (seq 0 (length cells))) cells.
Definition js_table (rows : list (option (list (option (located cell))))) (centered : bool) : table :=
  table_new (concat (map (fun x => match snd x with Some row => js_row (fst x) row | None => [] end)
                         (combine (seq 0 (length rows)) rows))) centered.

(** utils.rs:4-18 [cast_value]: a [Cell] object of JavaScript holds the address
    of its value, and [from_abi] takes the value out of the memory of the module
    and frees it; the object keeps the address.  [heap]: the values there are;
    taking one that has been freed is undefined behaviour, [None].  An entry of
    a row is an address ([Some]) or no [Cell] ([None]). *)
Definition heap := list (nat * located cell).
Definition take_cell (p : nat) (h : heap) : option (located cell * heap) :=
  match find (fun x => fst x =? p) h with
  | Some x => Some (snd x, filter (fun y => negb (fst y =? p)) h)
  | None => None
  end.
Fixpoint take_row (row : list (option nat)) (h : heap) : option (list (option (located cell)) * heap) :=
  match row with
  | [] => Some ([], h)
  | None :: row' => option_map (fun r => (None :: fst r, snd r)) (take_row row' h)
  | Some p :: row' =>
      match take_cell p h with
      | Some (c, h') => option_map (fun r => (Some c :: fst r, snd r)) (take_row row' h')
      | None => None
      end
  end.
Fixpoint take_rows (rows : list (option (list (option nat)))) (h : heap)
  : option (list (option (list (option (located cell)))) * heap) :=
  match rows with
  | [] => Some ([], h)
  | None :: rows' => option_map (fun r => (None :: fst r, snd r)) (take_rows rows' h)
  | Some row :: rows' =>
      match take_row row h with
      | Some (cs, h') => option_map (fun r => (Some cs :: fst r, snd r)) (take_rows rows' h')
      | None => None
      end
  end.
(** elements.rs:939-969 again, with the objects. *)
Definition js_table_from (h : heap) (rows : list (option (list (option nat)))) (centered : bool) : option (table * heap) :=
  option_map (fun r => (js_table (fst r) centered, snd r)) (take_rows rows h).

(** * Comments *)

(** elements.rs:1577-1593 [Comment::new], 1596-1611 [line_at], [line_cnt]. *)
Definition js_comment (txt : str) (multiline : bool) : comment :=
  if multiline then CMulti (split_on b_nl txt) else CLine txt.
Definition js_line_at (c : comment) (i : nat) : option str :=
  match c with
  | CLine t => if i =? 0 then Some (str_trim t) else None
  | CMulti ls => nth_error ls i
  end.
Definition js_line_cnt (c : comment) : nat := match c with CLine _ => 1 | CMulti ls => length ls end.

(** * Definitions *)

(** elements.rs:535-543 [get_def]. *)
Definition js_get_def (d : def_list) (term : str) : option container :=
  option_map (fun b => concat (map l_val (l_val b))) (def_get d term).

(** * [to_js] *)

Section Js.
Variable uri_json : uri -> json.
Variable date_str : date -> str.
(** elements.rs:1735-1737: the value, [None] if [unwrap] panics. *)
Definition page_to_js (p : page) : option json :=
  let j := j_page uri_json date_str p in if whole j then Some j else None.
End Js.
