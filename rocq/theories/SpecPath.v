(** What paths and links mean, stated without the functions of ModelPath. *)
From Coq Require Import Relations.
From Verif Require Import Base ModelSpan ModelAst ModelLink ModelPath.

(** * Lexical resolution of paths *)

(** One step that removes a "." or a "..": it may be removed with the name
    before it, at the root, or (nothing being known about what lies above) at
    the start of a relative path. *)
Inductive shorter : path -> path -> Prop :=
| sh_cur a b : shorter (a ++ CCur :: b) (a ++ b)
| sh_up a s b : shorter (a ++ CNorm s :: CParent :: b) (a ++ b)
| sh_root b : shorter (CRoot :: CParent :: b) (CRoot :: b)
| sh_start b : shorter (CParent :: b) b.
Definition reduces : path -> path -> Prop := clos_refl_trans path shorter.

Definition dot_free (p : path) : Prop := ~ In CCur p /\ ~ In CParent p.
(** The root comes first or not at all. *)
Definition rooted_once (p : path) : Prop := ~ In CRoot (tl p).

(** * Files *)

(** A name that a file can have. *)
Definition name_ok (s : str) : Prop := s <> [] /\ s <> bs "." /\ s <> bs ".." /\ ~ In x2f s.
(** The file or directory with the given names, from the root. *)
Definition at_root (names : list str) : path := CRoot :: map CNorm names.
Definition below (names : list str) : path := map CNorm names.
(** [n] with the extension [e]. *)
Definition dotted (n e : str) : str := n ++ bs "." ++ e.
Definition no_dot (n : str) : Prop := ~ In x2e n.

(** * Following a link in a browser *)

(** Names are read one by one from a directory; [dec] gives the file name that
    a name stands for. *)
Fixpoint follow_names (dec : str -> str) (dir : list str) (segs : list str) : list str :=
  match segs with
  | [] => dir
  | s :: r =>
      if str_eqb s [] || str_eqb s (bs ".") then follow_names dec dir r
      else if str_eqb s (bs "..") then follow_names dec (removelast dir) r
      else follow_names dec (dir ++ [dec s]) r
  end.
(** The path of a relative reference is read from the directory of the page;
    escapes stand for the characters of file names. *)
Definition follow (page : list str) (link : str) : list str :=
  match link with
  | [] => page
  | _ => follow_names percent_decode (removelast page) (split_on x2f link)
  end.
(** Reading the names from a directory at depth [depth] never leaves the top. *)
Fixpoint stays (depth : nat) (segs : list str) : bool :=
  match segs with
  | [] => true
  | s :: r =>
      if str_eqb s [] || str_eqb s (bs ".") then stays depth r
      else if str_eqb s (bs "..") then match depth with 0 => false | S d => stays d r end
      else stays (S depth) r
  end.

(** The names mean themselves in links. *)
Definition unescaped (s : str) : Prop := ~ In x25 s.

(** A name that pages of the generated site have. *)
Definition page_name (s : str) : Prop := exists n, s = dotted n (bs "html").

Definition prefix_of {A} (a b : list A) : Prop := exists r, b = a ++ r.

(** * The page that a link names *)

(** The names of the page: the index page for a directory. *)
Definition link_page (d : link_data) : list str :=
  match rev (u_segs (ld_uri d)) with
  | [] :: _ => u_segs (ld_uri d) ++ [bs "index"]
  | _ => u_segs (ld_uri d)
  end.
(** Names other than "." and the empty one. *)
Definition proper_names (l : list str) : list str :=
  filter (fun s => negb (str_eqb s [] || str_eqb s (bs "."))) l.
(** The name of a page after its extension is exchanged. *)
Inductive renamed (e : str) : str -> str -> Prop :=
| rn_plain n : no_dot n -> renamed e n (dotted n e)
| rn_hidden x : no_dot x -> renamed e (bs "." ++ x) (dotted (bs "." ++ x) e)
| rn_dotted n e' : n <> [] -> no_dot e' -> renamed e (dotted n e') (dotted n e).

(** No name of a generated page among directory names. *)
Definition no_page (l : list str) : Prop := Forall (fun s => ~ page_name s) l.
(** The path [b] leads through [a], or is its directory. *)
Definition comparable {A} (a b : list A) : Prop :=
  (prefix_of a b /\ a <> b) \/ (a <> [] /\ b = removelast a).

(** What a link with the relative reference [text] becomes: the reference, with
    the parts of the anchor joined by dashes as fragment. *)
Definition linked (rel_parse : str -> option uri) (frag_parse : str -> option str)
  (text : str) (a : option anchor) (r : resolved) : Prop :=
  match rel_parse text with
  | None => r = RsBadReference
  | Some u =>
      r = RsUri (match a with
                 | Some parts => Uri (u_scheme u) (u_authority u) (u_abs u) (u_segs u) (u_query u)
                                     (frag_parse (join (bs "-") parts))
                 | None => u
                 end)
  end.
