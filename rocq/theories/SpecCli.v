(** What users rely on when they run the command line program, stated without
    the functions of ModelCli that it is about. *)
From Verif Require Import Base ModelSpan ModelAst ModelPath ModelCli.

(** * Selection of wikis *)

(** [w], at position [i], is named by the include list. *)
Definition listed (include : list index_or_name) (i : nat) (w : wiki) : Prop :=
  include = [] \/ In (IxIndex i) include \/ exists n, w_name w = Some n /\ In (IxName n) include.

(** [picked P i l l']: [l'] are the elements of [l] that satisfy [P] at their
    position, counted from [i]. *)
Inductive picked {A} (P : nat -> A -> Prop) : nat -> list A -> list A -> Prop :=
| picked_nil i : picked P i [] []
| picked_yes i x l l' : P i x -> picked P (S i) l l' -> picked P i (x :: l) (x :: l')
| picked_no i x l l' : ~ P i x -> picked P (S i) l l' -> picked P i (x :: l) l'.

Definition with_include (o : copt) (l : list index_or_name) : copt :=
  COpt (o_cache o) (o_no_cache o) (o_no_prune o) (o_merge o) l.

(** * File systems *)

Definition wf_fs (fs : fsys) : Prop := NoDup (map fst fs).
Definition file_at (fs : fsys) (p : path) (d : str) : Prop := In (p, NdFile d) fs.
Definition below (root p : path) : Prop := exists rest, p = root ++ rest.
(** A path without [.] and [..] from the root. *)
Definition absolute (p : path) : Prop := exists names, p = CRoot :: map CNorm names.
Definition abs_fs (fs : fsys) : Prop := Forall (fun e => absolute (fst e)) fs.
(** All texts of files. *)
Definition contents (fs : fsys) : list str :=
  flat_map (fun e => match snd e with NdFile d => [d] | NdDir => [] end) fs.
(** Nothing at [p] differs. *)
Definition same_at (p : path) (fs fs' : fsys) : Prop := forall n, In (p, n) fs <-> In (p, n) fs'.

(** * Histories *)

(** The states that a run goes through. *)
Definition states (fs : fsys) (l : list action) : list fsys :=
  map (fun k => act_all fs (firstn k l)) (seq 0 (S (length l))).
(** A crash: the first [k] actions are done; if the next one writes a file,
    the first [j] bytes have been written. *)
Definition crashed (k j : nat) (l : list action) : list action :=
  firstn k l ++ match nth_error l k with Some (AWrite p d) => [AWrite p (firstn j d)] | _ => [] end.

Section History.
Variable cache : path.
(** The runs of the program: what they would do from a state. *)
Variable run : fsys -> list action -> Prop.

(** [history fs ts]: [fs] is reached from a state with an empty cache by
    edits outside the cache, and complete or crashed runs; [ts] are all texts
    that were in files meanwhile. *)
Inductive history : fsys -> list str -> Prop :=
| hist_start fs : wf_fs fs -> abs_fs fs -> (forall p d, file_at fs p d -> ~ below cache p) -> history fs (contents fs)
| hist_write fs ts p d : history fs ts -> absolute p -> ~ below cache p ->
    history (fs_set p (NdFile d) fs) (ts ++ contents (fs_set p (NdFile d) fs))
| hist_delete fs ts p : history fs ts -> ~ below cache p -> history (fs_del p fs) ts
| hist_mkdir fs ts p : history fs ts -> absolute p -> ~ below cache p -> history (fs_set p NdDir fs) ts
| hist_run fs ts l : history fs ts -> run fs l ->
    history (act_all fs l) (ts ++ flat_map contents (states fs l))
| hist_crash fs ts l k j : history fs ts -> run fs l ->
    history (act_all fs (crashed k j l))
      (ts ++ flat_map contents (states fs l) ++ contents (act_all fs (crashed k j l))).
End History.

(** The runs of the program that use the cache directory [cache] and put no
    other output there: loading a file, loading wikis, converting, formatting. *)
Section Runs.
Variable utf8 : str -> bool.
Variable sha : str -> str.
Variable parse : str -> pres.
Variable ser : page -> str.
Variable de : str -> option page.
Variable html : list wiki -> option nat -> path -> page -> ires str.
Variable home : path.
Variable css : str.
Variable format : page -> option str.
Variable canonicalize : fsys -> path -> option path.
Variable cache : path.

Definition outputs_outside (w : wiki) : Prop :=
  (forall p out, absolute p -> make_output_path w p (bs "html") = Some out -> absolute out /\ ~ below cache out) /\
  absolute (path_join (w_html w) [CNorm (bs "style.css")]) /\
  ~ below cache (path_join (w_html w) [CNorm (bs "style.css")]).

Inductive program_run (fs : fsys) : list action -> Prop :=
| run_file p nc : program_run fs (fst (load_wiki_file utf8 sha parse ser de p cache nc fs))
| run_ast wikis include nc np :
    program_run fs (fst (load_ast utf8 sha parse ser de wikis include cache nc np fs))
| run_conv opt stdout with_css config vim :
    o_cache opt = cache -> outputs_outside (default_wiki home) ->
    Forall outputs_outside config -> (forall l, vim = Some l -> Forall outputs_outside l) ->
    program_run fs (fst (run_convert utf8 sha parse ser de html home css opt stdout with_css config vim fs))
| run_form inline exts paths :
    (forall p d, In (AWrite p d) (fst (format_run utf8 parse format canonicalize inline exts paths fs)) -> absolute p /\ ~ below cache p) ->
    program_run fs (fst (format_run utf8 parse format canonicalize inline exts paths fs)).
End Runs.

(** Different texts of [ts] have different checksums. *)
Definition collision_free (sha : str -> str) (ts : list str) : Prop :=
  forall t1 t2, In t1 ts -> In t2 ts -> sha t1 = sha t2 -> t1 = t2.

(** What is read back of a parsed page, or of the beginning of what was written
    for it, is that page or an error. *)
Definition reads_back (parse : str -> pres) (ser : page -> str) (de : str -> option page) : Prop :=
  forall text pg j x, parse text = POk pg -> de (firstn j (ser pg)) = Some x -> x = pg.

(** Loading [p] without any cache. *)
Definition fresh (utf8 : str -> bool) (sha : str -> str) (parse : str -> pres) (fs : fsys) (p : path) (r : ires wiki_file) : Prop :=
  (exists text, file_at fs p text /\ utf8 text = true /\
     r = match parse text with
         | POk pg => IOk (WikiFile p (sha text) pg)
         | PErr => IErr
         | PPanic => IPanic
         end) \/
  (exists text, file_at fs p text /\ utf8 text = false /\ r = IErr) \/
  ((forall text, ~ file_at fs p text) /\ r = IErr).

(** * What a run does outside the cache directory *)

Definition action_path (a : action) : option path :=
  match a with AWrite p _ | ADel p | AMkdir p => Some p | APrint _ => None end.
(** Actions at paths that are not below [cache], and what is printed. *)
Definition outside (cache : path) (a : action) : bool :=
  match action_path a with Some p => negb (path_starts_with p cache) | None => true end.
(** The files and directories that are not below [cache], in the order of the
    file system. *)
Definition rest_of (cache : path) (fs : fsys) : fsys :=
  filter (fun e => negb (path_starts_with (fst e) cache)) fs.
(** No path is below both. *)
Definition apart (a b : path) : Prop := ~ below a b /\ ~ below b a.
(** The cache directory exists. *)
Definition ready (cache : path) (fs : fsys) : Prop := forall k, 0 < k <= length cache -> is_dir fs (firstn k cache) = true.
(** All texts that are in files during a run. *)
Definition texts_of {A} (m : io A) (fs : fsys) : list str := flat_map contents (states fs (fst (m fs))).

(** The same options with another use of the cache. *)
Definition opt_with (o : copt) (nc np : bool) : copt := COpt (o_cache o) nc np (o_merge o) (o_include o).
(** What every configured wiki satisfies. *)
Definition every (P : wiki -> Prop) (config : list wiki) (vim : option (list wiki)) : Prop :=
  Forall P config /\ forall l, vim = Some l -> Forall P l.
(** * Loaded configurations *)

(** The wikis that options and files configure, before the include list. *)
Definition configured (opt : copt) (config : list wiki) (vim : option (list wiki)) (base : list wiki) : Prop :=
  ((config = [] \/ o_merge opt = true) /\ exists l, vim = Some l /\ base = l ++ config) \/
  ((config = [] \/ o_merge opt = true) /\ vim = None /\ base = config) \/
  (config <> [] /\ o_merge opt = false /\ base = config).

(** * Pruning *)

(** [p] is a file below the cache directory that belongs to no loaded file. *)
Definition stale (utf8 : str -> bool) (cache : path) (a : ast) (p : path) (n : node) : Prop :=
  (exists d, n = NdFile d) /\ below cache p /\
  exists name, file_name p = Some name /\
    (utf8 name = false \/ ~ exists w f, In w a /\ In f (aw_files w) /\ wf_sum f = name).

(** * Formatting *)

Section Reformat.
Variable utf8 : str -> bool.
Variable parse : str -> pres.
Variable format : page -> option str.
(** The formatted text of a text. *)
Definition formatted (text out : str) : Prop :=
  utf8 text = true /\ exists pg, parse text = POk pg /\ format pg = Some out.
(** [reformatted sel fs fs' ]: texts at paths in [sel] have been replaced by
    their formatted texts, nothing else. *)
Inductive reformatted (sel : path -> Prop) : fsys -> fsys -> Prop :=
| ref_done fs : reformatted sel fs fs
| ref_step fs fs' p text out : sel p -> file_at fs p text -> formatted text out ->
    reformatted sel (fs_set p (NdFile out) fs) fs' -> reformatted sel fs fs'.
End Reformat.
(** The files that [format] is asked to format: a file given itself, or files
    with one of the extensions below a given directory. *)
Definition asked (canonicalize : fsys -> path -> option path) (fs : fsys) (exts : list str) (paths : list path) (p : path) : Prop :=
  exists a q, In a paths /\ canonicalize fs a = Some q /\
    (((exists d, file_at fs q d) /\ p = q) \/
     ((forall d, ~ file_at fs q d) /\ below q p /\ exists e, extension p = Some e /\ In e exts)).
(** Finding a path does not depend on the texts of files. *)
Definition texts_irrelevant (canonicalize : fsys -> path -> option path) : Prop :=
  forall fs p text d q, file_at fs p text -> canonicalize (fs_set p (NdFile d) fs) q = canonicalize fs q.
(** One or more formattings. *)
Inductive formats (f : str -> str -> Prop) : str -> str -> Prop :=
| formats_once a b : f a b -> formats f a b
| formats_more a b c : formats f a b -> f b c -> formats f a c.

(** * Outputs of converting *)

Section Outputs.
Variable parse : str -> pres.
Variable html : list wiki -> option nat -> path -> page -> ires str.
Variable home : path.
Variable css : str.
Variable cache : path.
Variable ws : list wiki.
Variable stdout with_css : bool.
(** The states of the run. *)
Variable St : fsys -> Prop.

(** [text] is the HTML of a text that the file [input] had. *)
Definition page_of (input : path) (text : str) : Prop :=
  exists x t pg i, St x /\ file_at x input t /\ parse t = POk pg /\ html ws i input pg = IOk text /\
    i = find_wiki_index_by_path (PathsConfig ws None []) input.
(** [w] is the innermost wiki that contains [p], or the default. *)
Definition owner (p : path) (w : wiki) : Prop :=
  (In w ws /\ below (w_path w) p /\ forall v, In v ws -> below (w_path v) p -> length (w_path v) <= length (w_path w)) \/
  ((forall v, In v ws -> ~ below (w_path v) p) /\ w = default_wiki home).
Definition allowed (a : action) : Prop :=
  match a with
  | AWrite p d =>
      below cache p \/
      (stdout = false /\
        ((with_css = true /\ d = css /\ exists w, In w ws /\ p = path_join (w_html w) [CNorm (bs "style.css")]) \/
         exists input w, owner input w /\ make_output_path w input (bs "html") = Some p /\ page_of input d))
  | ADel p => below cache p
  | AMkdir p => below p cache \/ stdout = false
  | APrint t => stdout = true /\ exists input text, t = text ++ [b_nl] /\ page_of input text
  end.
End Outputs.
