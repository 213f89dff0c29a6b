(** Executable stand-ins for the two external parsers, used only by the
    concrete examples and counterexamples.  General theorems quantify over
    all [uri_parse] and [date_parse].

    [rfc_uri_parse] follows RFC 3986 as uriparse 0.6.3 implements it, with two
    simplifications: the authority is only checked character by character,
    and the scheme is always lowercased.  [ymd_parse] accepts
    [YYYY-M[M]-D[D]] dates of the proleptic Gregorian calendar; chrono also
    accepts signs, longer years and leading blanks. *)
From Verif Require Import Base ModelSpan ModelAst ModelLink ModelInline.

Definition is_unreserved (b : byte) : bool :=
  is_alpha b || is_digit b || existsb (beqb b) (bs "-._~").
Definition is_subdelim (b : byte) : bool := existsb (beqb b) (bs "!$&'()*+,;=").
Definition is_hex (b : byte) : bool := match hex_val b with Some _ => true | None => false end.

(** Every character satisfies [ok] or starts a "%XY" triple. *)
Fixpoint chars_ok (ok : byte -> bool) (l : str) : bool :=
  match l with
  | [] => true
  | b :: l' =>
      if beqb b x25 then
        match l' with
        | h1 :: h2 :: l'' => is_hex h1 && is_hex h2 && chars_ok ok l''
        | _ => false
        end
      else ok b && chars_ok ok l'
  end.
Definition pchar_ok (b : byte) : bool :=
  is_unreserved b || is_subdelim b || existsb (beqb b) (bs ":@").
Definition query_ok (b : byte) : bool := pchar_ok b || existsb (beqb b) (bs "/?").
Definition auth_ok (b : byte) : bool := pchar_ok b || existsb (beqb b) (bs "[]").
Definition scheme_ok (l : str) : bool :=
  match l with
  | [] => false
  | b :: _ => is_alpha b && forallb (fun c => is_alpha c || is_digit c || existsb (beqb c) (bs "+-.")) l
  end.
Definition to_lower (b : byte) : byte := if is_upper b then byte_of (byte_n b + 32) else b.

(** Split at the first byte satisfying [p]. *)
Definition cut (p : byte -> bool) (l : str) : str * str :=
  match find_pos p l with
  | Some i => (firstn i l, skipn i l)
  | None => (l, [])
  end.

Definition parse_scheme (l : str) : option str * str :=
  let (a, r) := cut (fun b => negb (is_alpha b || is_digit b || existsb (beqb b) (bs "+-."))) l in
  match r with
  | b :: r' => if beqb b x3a && scheme_ok a then (Some (map to_lower a), r') else (None, l)
  | [] => (None, l)
  end.

Definition rfc_uri_parse (l : str) : option uri :=
  let (scheme, r0) := parse_scheme l in
  let (auth, r1) :=
    match r0 with
    | x2f :: x2f :: r => let (a, r') := cut (fun b => existsb (beqb b) (bs "/?#")) r in (Some a, r')
    | _ => (None, r0)
    end in
  let (path, r2) := cut (fun b => existsb (beqb b) (bs "?#")) r1 in
  let '(query, r3) :=
    match r2 with
    | x3f :: r => let (q, r') := cut (beqb x23) r in (Some q, r')
    | _ => (None, r2)
    end in
  let frag := match r3 with x23 :: r => Some r | _ => None end in
  (* "http://host" is read as "http://host/" *)
  let absolute := starts_with (bs "/") path || match auth with Some _ => true | None => false end in
  let segs := split_on x2f (if starts_with (bs "/") path then skipn 1 path else path) in
  let ok :=
    match auth with Some a => chars_ok auth_ok a | None => true end
    && forallb (chars_ok pchar_ok) segs
    && match query with Some q => chars_ok query_ok q | None => true end
    && match frag with Some f => chars_ok query_ok f | None => true end
    && match scheme, auth, segs with
       | None, None, s :: _ => absolute || negb (existsb (beqb x3a) s)
       | _, _, _ => true
       end in
  if ok then Some (Uri scheme auth absolute segs query frag) else None.

(** [uriparse::Fragment::try_from]. *)
Definition rfc_fragment (s : str) : option str := if chars_ok query_ok s then Some s else None.

Definition nat_of_digits (l : str) : option nat :=
  match l with
  | [] => None
  | _ => if forallb is_digit l
         then Some (fold_left (fun a b => a * 10 + (byte_n b - 48)) l 0) else None
  end.
Definition leap (y : nat) : bool :=
  (y mod 4 =? 0) && (negb (y mod 100 =? 0) || (y mod 400 =? 0)).
Definition days_in (y m : nat) : nat :=
  match m with
  | 1 | 3 | 5 | 7 | 8 | 10 | 12 => 31
  | 4 | 6 | 9 | 11 => 30
  | 2 => if leap y then 29 else 28
  | _ => 0
  end.
Definition ymd_parse (l : str) : option date :=
  match split_on x2d l with
  | [y; m; d] =>
      if (length y =? 4) && (length m <=? 2) && (length d <=? 2) then
        match nat_of_digits y, nat_of_digits m, nat_of_digits d with
        | Some y, Some m, Some d =>
            if (1 <=? d) && (d <=? days_in y m) then Some (Date (Z.of_nat y) m d) else None
        | _, _, _ => None
        end
      else None
  | _ => None
  end.
