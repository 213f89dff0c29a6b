(** What a parsed document must look like relative to its source text.

    These predicates speak only about the element tree (ModelAst) and the
    bytes of the input; they do not mention any parser.  Positions are byte
    offsets into [inner], regions are [lo, hi). *)
From Verif Require Import Base ModelSpan ModelAst ModelLink ModelInline.

(** A line terminator as the parsers accept it. *)
Definition eol_str (e : str) : Prop := e = [] \/ e = [b_nl] \/ e = [b_cr; b_nl].

(** Spaces and tabs only. *)
Definition blanks (l : str) : Prop := Forall (fun b => is_space b = true) l.

(** [i] is the beginning of a line of [inner]. *)
Definition bol (inner : str) (i : nat) : Prop := i = 0 \/ nth_error inner (i - 1) = Some b_nl.

(** [e] ends a line at [hi]; it is empty only at the end of the input (or, as
    the last part of a list item, where the next line begins). *)
Definition eol_at (inner : str) (hi : nat) (e : str) : Prop :=
  e = [b_nl] \/ e = [b_cr; b_nl] \/ (e = [] /\ (hi = length inner \/ bol inner hi)).

(** A line terminator, or the end of the input, is at [i]. *)
Definition line_ends (inner : str) (i : nat) : Prop :=
  exists e, slice i (i + length e) inner = e /\ eol_at inner (i + length e) e.

(** A line terminator is at [i]. *)
Definition line_break (inner : str) (i : nat) : Prop :=
  exists e, (e = [b_nl] \/ e = [b_cr; b_nl]) /\ slice i (i + length e) inner = e.

(** [i] is the beginning of a word of [inner]. *)
Definition word_start (inner : str) (i : nat) : Prop :=
  i = 0 \/ exists b, nth_error inner (i - 1) = Some b /\ is_ascii_ws b = true.

Definition no_nl (l : str) : Prop := ~ In b_nl l.

(** [pat] does not occur in [l]. *)
Definition absent (pat l : str) : Prop := forall a b, l <> a ++ pat ++ b.

(** The delimiters of a decoration. *)
Definition delim_of (k : deco) : str :=
  match k with
  | Bold => bs "*" | Italic => bs "_" | Strikeout => bs "~~"
  | Superscript => bs "^" | Subscript => bs ",,"
  end.

Definition kw_str (k : keyword) : str :=
  match k with
  | KTodo => bs "TODO" | KDone => bs "DONE" | KStarted => bs "STARTED"
  | KFixme => bs "FIXME" | KFixed => bs "FIXED" | KXxx => bs "XXX"
  end.

(** A sequence of located elements laid out between [lo] and [hi]: before
    each element [gap] holds of the skipped range, after the last one [fin].
    Every element has depth [d], a non-empty region that begins and ends at
    offsets satisfying [bd], and satisfies [P] on its region. *)
Definition chain {A} (bd : nat -> Prop) (gap fin : nat -> nat -> Prop) (P : nat -> nat -> A -> Prop) (d : nat) :=
  fix go (lo : nat) (l : list (located A)) (hi : nat) : Prop :=
    match l with
    | [] => fin lo hi
    | x :: l' =>
        lo <= r_off (l_reg x) /\ gap lo (r_off (l_reg x)) /\
        r_depth (l_reg x) = d /\ 0 < r_len (l_reg x) /\
        (bd (r_off (l_reg x)) /\ bd (r_off (l_reg x) + r_len (l_reg x))) /\
        P (r_off (l_reg x)) (r_off (l_reg x) + r_len (l_reg x)) (l_val x) /\
        go (r_off (l_reg x) + r_len (l_reg x)) l' hi
    end.

Definition exact (lo hi : nat) : Prop := lo = hi.
Definition before (lo hi : nat) : Prop := lo <= hi.

(** Lines of a multi line comment: split at line terminators, without a final
    empty line. *)
Definition comment_text (lines : list str) (body : str) : Prop :=
  exists ls : list (str * str), exists last : str,
    body = concat (map (fun p => fst p ++ snd p) ls) ++ last /\
    Forall (fun p => no_nl (fst p) /\ (snd p = [b_nl] \/ snd p = [b_cr; b_nl])) ls /\
    no_nl last /\
    lines = map fst ls ++ match last with [] => [] | _ => [last] end.

Section Doc.
Variable uri_parse : str -> option uri.
Variable date_parse : str -> option date.
Variable inner : str.
(** The offsets at which an element may begin or end. *)
Variable bd : nat -> Prop.

Local Notation text lo hi := (slice lo hi inner).

(** [lo, hi) is [L], a non-empty single-line [body], [R]; the body does not
    contain "%%" and the closing [R] is the first one after the first byte of
    the body. *)
Definition surrounded_by (L R : str) (lo hi : nat) (body : str) : Prop :=
  text lo hi = L ++ body ++ R /\ body <> [] /\ no_nl body /\ absent (bs "%%") body /\
  (forall i, 0 < i -> starts_with R (skipn i (body ++ R)) = true -> length body <= i).
Definition surrounded (L R : str) (lo hi : nat) : Prop :=
  exists body, surrounded_by L R lo hi body.

(** The URI of a bracketed link comes from a prefix of its body, either as it
    stands or percent-encoded. *)
Definition uri_from (t : str) (u : uri) : Prop :=
  uri_parse t = Some u \/ (uri_parse t = None /\ uri_parse (encode_uri t) = Some u).

Definition raw_scheme (u : uri) : Prop :=
  exists s, u_scheme u = Some s /\
    In s [bs "http"; bs "https"; bs "ftp"; bs "file"; bs "local"; bs "mailto"].

(** [t] is everything up to the first of "|", "]]", "}}" or the end. *)
Definition uri_text (t rest : str) : Prop :=
  t <> [] /\ ~ In x7c t /\ absent (bs "]]") t /\ absent (bs "}}") t /\
  (rest = [] \/ starts_with (bs "|") rest = true \/ starts_with (bs "]]") rest = true \/
   starts_with (bs "}}") rest = true).

(** The body of a link and the data read from it: the URI is the text up to
    the first separator, the description the text between the first and the
    second bar.  What follows is only inspected for properties. *)
Fixpoint ld_ok (body : str) (d : link_data) {struct d} : Prop :=
  match d with
  | LinkData u desc props =>
      exists t rest, body = t ++ rest /\ uri_text t rest /\ uri_from t u /\
        match desc with
        | None => True
        | Some x => exists dt rest', rest = bs "|" ++ dt ++ rest' /\ ~ In x7c dt /\ desc_ok dt x
        end
  end
with desc_ok (dt : str) (x : description) {struct x} : Prop :=
  match x with
  | DescText t => t = dt
  | DescTransclusion d =>
      exists body junk, dt = bs "{{" ++ body ++ bs "}}" ++ junk /\ body <> [] /\ ld_ok body d
  end.

Definition link_ok (lo hi : nat) (l : link) : Prop :=
  match l with
  | LWiki d => exists body, surrounded_by (bs "[[") (bs "]]") lo hi body /\ ld_ok body d
  | LIndexed i d =>
      exists body num body', surrounded_by (bs "[[") (bs "]]") lo hi body /\
        body = bs "wiki" ++ num ++ bs ":" ++ body' /\ ~ In x3a num /\
        parse_u32 num = Some i /\ ld_ok body' d
  | LNamed name d =>
      exists body body', surrounded_by (bs "[[") (bs "]]") lo hi body /\
        body = bs "wn." ++ name ++ bs ":" ++ body' /\ name <> [] /\ ~ In x3a name /\
        ld_ok body' d
  | LDiary dt d =>
      exists body ds rest a, surrounded_by (bs "[[") (bs "]]") lo hi body /\
        body = bs "diary:" ++ ds ++ rest /\ ~ In x7c ds /\ ~ In x23 ds /\
        date_parse ds = Some dt /\
        (a = [] \/ exists ft rest', rest = ft ++ rest' /\ anchor_from_fragment ft = Some a) /\
        uri_parse (anchor_to_fragment a) = Some (ld_uri d)
  | LTransclusion d => exists body, surrounded_by (bs "{{") (bs "}}") lo hi body /\ ld_ok body d
  | LRaw d =>
      uri_parse (text lo hi) = Some (ld_uri d) /\ raw_scheme (ld_uri d) /\
      ld_desc d = None /\ ld_props d = None /\
      Forall (fun b => is_space b = false /\ is_nl b = false) (text lo hi)
  end.

Fixpoint dc_ok (d : nat) (lo hi : nat) (x : dcontent) {struct x} : Prop :=
  match x with
  | DCText t => t = text lo hi /\ no_nl t
  | DCKeyword k => text lo hi = kw_str k
  | DCLink l => link_ok lo hi l
  | DCDeco k cs =>
      surrounded (delim_of k) (delim_of k) lo hi /\ cs <> [] /\
      chain bd exact before (dc_ok (S d)) (S d)
            (lo + length (delim_of k)) cs (hi - length (delim_of k))
  end.

(** An inline element of depth [d] whose region is [lo, hi). *)
Definition inline_ok (d lo hi : nat) (x : inline) : Prop :=
  match x with
  | IText t => t = text lo hi /\ no_nl t
  | IDeco k cs => dc_ok d lo hi (DCDeco k cs)
  | IKeyword k => text lo hi = kw_str k
  | ILink l => link_ok lo hi l
  | ITags ts =>
      word_start inner lo /\ ts <> [] /\
      Forall (fun t => t <> [] /\ Forall (fun b => b <> x3a /\ is_ascii_ws b = false) t) ts /\
      (exists rest, text lo hi = bs ":" ++ concat (map (fun t => t ++ bs ":") ts) ++ rest) /\
      Forall (fun b => is_ascii_ws b = false) (text lo hi)
  | ICode t => surrounded_by (bs "`") (bs "`") lo hi t
  | IMath t =>
      text lo hi = bs "$" ++ t ++ bs "$" /\ t <> [] /\ no_nl t /\ absent (bs "%%") t /\ ~ In x24 t
  | IComment (CLine t) => text lo hi = bs "%%" ++ t /\ no_nl t
  | IComment (CMulti ls) =>
      exists body, text lo hi = bs "%%+" ++ body ++ bs "+%%" /\
                   absent (bs "+%%") body /\ comment_text ls body
  end.

(** A line comment extends to the end of its line, or of the text (header,
    cell, term) it is in: nothing follows it. *)
Definition comments_end (c : container) : Prop :=
  forall c1 x c2 t, c = c1 ++ x :: c2 -> l_val x = IComment (CLine t) ->
    c2 = [] \/ line_break inner (r_off (l_reg x) + r_len (l_reg x)).

(** A container whose elements have depth [d] exactly tiles [lo, hi). *)
Definition container_ok (d lo : nat) (c : container) (hi : nat) : Prop :=
  c <> [] /\ chain bd exact exact (inline_ok d) d lo c hi /\ comments_end c.

End Doc.
