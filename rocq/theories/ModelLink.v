(** Links, anchors and URI text
    (/repo/vimwiki-core/src/lang/elements/blocks/inline/links). *)
From Verif Require Import Base ModelSpan ModelAst.

(** * Generic [str] operations used by the code *)

(** [str::split(char)] for an ASCII char. *)
Fixpoint split_on (c : byte) (l : str) : list str :=
  match l with
  | [] => [[]]
  | b :: l' =>
      if beqb b c then [] :: split_on c l'
      else match split_on c l' with
           | x :: xs => (b :: x) :: xs
           | [] => [[b]]
           end
  end.

(** [[T]::join(sep)]. *)
Fixpoint join (sep : str) (l : list str) : str :=
  match l with
  | [] => []
  | [x] => x
  | x :: l' => x ++ sep ++ join sep l'
  end.

(** [str::replacen(pat, to, 1)] for a non-empty pattern. *)
Fixpoint replace_first (pat to l : str) : str :=
  if starts_with pat l then to ++ skipn (length pat) l
  else match l with
       | [] => []
       | b :: l' => b :: replace_first pat to l'
       end.

(** [str::replace(pat, to)]: leftmost non-overlapping matches of a non-empty
    pattern.  [skip] counts bytes of a match still to drop. *)
Fixpoint replace_go (pat to : str) (skip : nat) (l : str) : str :=
  match l with
  | [] => []
  | b :: l' =>
      match skip with
      | S k => replace_go pat to k l'
      | 0 => if starts_with pat l then to ++ replace_go pat to (length pat - 1) l'
             else b :: replace_go pat to 0 l'
      end
  end.
Definition replace_all (pat to l : str) : str := replace_go pat to 0 l.

(** [str::split(&str)] for a non-empty pattern. *)
Fixpoint split_str_go (pat : str) (skip : nat) (l : str) : list str :=
  match l with
  | [] => [[]]
  | b :: l' =>
      match skip with
      | S k => split_str_go pat k l'
      | 0 => if starts_with pat l then [] :: split_str_go pat (length pat - 1) l'
             else match split_str_go pat 0 l' with
                  | x :: xs => (b :: x) :: xs
                  | [] => [[b]]
                  end
      end
  end.
Definition split_str (pat l : str) : list str := split_str_go pat 0 l.

(** * Percent encoding (crate percent-encoding 2.1) *)

Definition byte_of (n : nat) : byte :=
  match Byte.of_N (N.of_nat n) with Some b => b | None => x00 end.
Definition hex_digit (n : nat) : byte :=
  if n <? 10 then byte_of (48 + n) else byte_of (55 + n).
Definition pct (b : byte) : str :=
  [x25; hex_digit (byte_n b / 16); hex_digit (byte_n b mod 16)].

(** data.rs:84-90 the [FRAGMENT] set: controls, space, double quote, <, >, `
    and #; [percent_encode] also encodes every non-ASCII byte. *)
Definition must_encode (b : byte) : bool :=
  (byte_n b <? 32) || (127 <=? byte_n b) ||
  match b with x20 | x22 | x3c | x3e | x60 | x23 => true | _ => false end.
Definition percent_encode (l : str) : str :=
  flat_map (fun b => if must_encode b then pct b else [b]) l.

(** data.rs:79-97 [LinkData::encode_uri]. *)
Definition encode_uri (l : str) : str := replace_first (bs "%23") (bs "#") (percent_encode l).

Definition hex_val (b : byte) : option nat :=
  let n := byte_n b in
  if (48 <=? n) && (n <=? 57) then Some (n - 48)
  else if (65 <=? n) && (n <=? 70) then Some (n - 55)
  else if (97 <=? n) && (n <=? 102) then Some (n - 87)
  else None.

(** [percent_decode]: "%XY" with two hex digits is one byte, anything else is
    kept. *)
Fixpoint percent_decode (l : str) : str :=
  match l with
  | [] => []
  | b :: l' =>
      if beqb b x25 then
        match l' with
        | h1 :: h2 :: l'' =>
            match hex_val h1, hex_val h2 with
            | Some a, Some c => byte_of (16 * a + c) :: percent_decode l''
            | _, _ => b :: percent_decode l'
            end
        | _ => b :: percent_decode l'
        end
      else b :: percent_decode l'
  end.

(** * Anchors (links/anchor.rs) *)

(** anchor.rs:61-70 [to_encoded_uri_fragment]. *)
Definition anchor_to_fragment (a : anchor) : str :=
  match a with [] => [] | _ => bs "#" ++ join (bs "%23") a end.

(** anchor.rs:76-86 [from_uri_fragment]. *)
Definition anchor_from_fragment (s : str) : option anchor :=
  match split_on x23 s with
  | [] :: it => Some it
  | _ => None
  end.

(** anchor.rs:89-97 [Display]. *)
Definition anchor_display (a : anchor) : str :=
  match a with [] => [] | _ => bs "#" ++ join (bs "#") a end.

(** data.rs:188-194 [to_anchor]. *)
Definition to_anchor (d : link_data) : option anchor :=
  option_map (split_str (bs "%23")) (u_fragment (ld_uri d)).

(** data.rs:112-124 [is_local_anchor]. *)
Definition is_local_anchor (d : link_data) : bool :=
  let u := ld_uri d in
  match u_scheme u with Some _ => false | None => true end
  && match u_authority u with Some _ => false | None => true end
  && forallb (fun s => match s with [] => true | _ => false end) (u_segs u)
  && match u_query u with Some _ => false | None => true end
  && match u_fragment u with Some _ => true | None => false end.

(** data.rs:129-138 [is_path_dir]. *)
Definition is_path_dir (d : link_data) : bool :=
  match rev (u_segs (ld_uri d)) with
  | [] => false
  | s :: _ => match s with [] => true | _ => false end
  end.

(** data.rs:141-149 [is_local]. *)
Definition is_local (d : link_data) : bool :=
  match u_scheme (ld_uri d) with
  | None => true
  | Some s => str_eqb s (bs "file") || str_eqb s (bs "local")
  end.

(** [Display] of [URIReference] (external crate uriparse). *)
Definition uri_display (u : uri) : str :=
  match u_scheme u with Some s => s ++ bs ":" | None => [] end
  ++ match u_authority u with Some a => bs "//" ++ a | None => [] end
  ++ (if u_abs u then bs "/" else []) ++ join (bs "/") (u_segs u)
  ++ match u_query u with Some q => bs "?" ++ q | None => [] end
  ++ match u_fragment u with Some f => bs "#" ++ f | None => [] end.
