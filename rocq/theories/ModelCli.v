(** The command line program: model of /repo/vimwiki-cli/src/{ast,opt,utils,
    subcommand/convert,subcommand/format}.rs.

    A file system is a finite map from absolute, canonical paths to regular
    files and directories.  Not modelled: symbolic links, permissions, full
    disks, other processes that change files during a run, and logging.
    Reading never changes anything; what a run does is the list of its
    [action]s, so a crash is a prefix of that list. *)
From Verif Require Import Base ModelSpan ModelAst ModelPath.

(** * Files *)

Inductive node := NdDir | NdFile (data : str).
Definition fsys := list (path * node).

Fixpoint path_eqb (a b : path) : bool :=
  match a, b with
  | [], [] => true
  | x :: a', y :: b' => comp_eqb x y && path_eqb a' b'
  | _, _ => false
  end.
Fixpoint fs_get (p : path) (fs : fsys) : option node :=
  match fs with
  | [] => None
  | (q, n) :: fs' => if path_eqb p q then Some n else fs_get p fs'
  end.
Fixpoint fs_set (p : path) (n : node) (fs : fsys) : fsys :=
  match fs with
  | [] => [(p, n)]
  | (q, m) :: fs' => if path_eqb p q then (p, n) :: fs' else (q, m) :: fs_set p n fs'
  end.
Definition fs_del (p : path) (fs : fsys) : fsys :=
  filter (fun e => negb (path_eqb p (fst e))) fs.

Inductive action :=
| AWrite (p : path) (data : str)     (* create or truncate, then write *)
| ADel (p : path)
| AMkdir (p : path)
| APrint (text : str).               (* standard output *)
Definition act (fs : fsys) (a : action) : fsys :=
  match a with
  | AWrite p d => fs_set p (NdFile d) fs
  | ADel p => fs_del p fs
  | AMkdir p => fs_set p NdDir fs
  | APrint _ => fs
  end.
Definition act_all (fs : fsys) (l : list action) : fsys := fold_left act l fs.

(** What a run returns: [io::Result], or a panic. *)
Inductive ires (A : Type) := IOk (a : A) | IErr | IPanic.
Arguments IOk {A} a.
Arguments IErr {A}.
Arguments IPanic {A}.
Definition io (A : Type) := fsys -> list action * ires A.
Definition ret {A} (a : A) : io A := fun _ => ([], IOk a).
Definition fail {A} : io A := fun _ => ([], IErr).
(** The [?] operator. *)
Definition bind {A B} (m : io A) (k : A -> io B) : io B := fun fs =>
  match m fs with
  | (l, IOk a) => let (l', r) := k a (act_all fs l) in (l ++ l', r)
  | (l, IErr) => (l, IErr)
  | (l, IPanic) => (l, IPanic)
  end.
Declare Scope io_scope.
Notation "x <- m ; k" := (bind m (fun x => k)) (at level 61, m at next level, right associativity) : io_scope.
Open Scope io_scope.
(** An [if let Err(x) = ... { log }] around [m]. *)
Definition ignore {A} (m : io A) : io unit := fun fs =>
  match m fs with
  | (l, IPanic) => (l, IPanic)
  | (l, _) => (l, IOk tt)
  end.
Fixpoint each_io {A} (f : A -> io unit) (l : list A) : io unit :=
  match l with
  | [] => ret tt
  | x :: l' => _ <- f x ; each_io f l'
  end.
(** A loop that changes local variables. *)
Fixpoint fold_io {A S} (f : S -> A -> io S) (l : list A) (s : S) : io S :=
  match l with
  | [] => ret s
  | x :: l' => s1 <- f s x ; fold_io f l' s1
  end.

(** std::fs: [is_dir], [exists], [read] (as bytes), [File::create] followed by
    writing all of [d], [remove_file], [create_dir_all]. *)
Definition is_dir (fs : fsys) (p : path) : bool :=
  path_eqb p [CRoot] || match fs_get p fs with Some NdDir => true | _ => false end.
Definition is_file (fs : fsys) (p : path) : bool :=
  match fs_get p fs with Some (NdFile _) => true | _ => false end.
Definition read_bytes (p : path) : io str := fun fs =>
  match fs_get p fs with Some (NdFile d) => ([], IOk d) | _ => ([], IErr) end.
Definition write_file (p : path) (d : str) : io unit := fun fs =>
  if is_dir fs p then ([], IErr)
  else match path_parent p with
       | Some q => if is_dir fs q then ([AWrite p d], IOk tt) else ([], IErr)
       | None => ([], IErr)
       end.
Definition remove_file (p : path) : io unit := fun fs =>
  if is_file fs p then ([ADel p], IOk tt) else ([], IErr).
(** The directories from the root to [p]. *)
Definition prefixes (p : path) : list path := map (fun n => firstn n p) (seq 1 (length p)).
Definition create_dir_all (p : path) : io unit :=
  each_io (fun q fs =>
    if is_dir fs q then ([], IOk tt)
    else match fs_get q fs with None => ([AMkdir q], IOk tt) | Some _ => ([], IErr) end)
    (prefixes p).

(** [WalkDir::new(root)] reduced to its regular files, in the order of the
    file system; the directory is read when the walk starts. *)
Definition walk (fs : fsys) (root : path) : list path :=
  map fst (filter (fun e => match snd e with NdFile _ => path_starts_with (fst e) root | NdDir => false end) fs).

(** * Options (opt.rs) *)

(** opt.rs:176-229 [IndexOrName] and [matches_either]. *)
Inductive index_or_name := IxIndex (i : nat) | IxName (n : str).
Definition matches_either (f : index_or_name) (i : nat) (name : option str) : bool :=
  match f with
  | IxIndex x => x =? i
  | IxName n => match name with Some m => str_eqb n m | None => false end
  end.
(** opt.rs:79-86 [filter_by_wiki_idx_and_name]. *)
Definition included (include : list index_or_name) (i : nat) (name : option str) : bool :=
  match include with
  | [] => true
  | _ => existsb (fun f => matches_either f i name) include
  end.

(** opt.rs:24-74 [CommonOpt], the fields used after the configuration is read. *)
Record copt := COpt {
  o_cache : path;
  o_no_cache : bool;
  o_no_prune : bool;
  o_merge : bool;
  o_include : list index_or_name
}.

(** * Configuration (utils.rs:21-99) *)

Section Config.
(** [Path::canonicalize]. *)
Variable canonicalize : fsys -> path -> option path.
(** The home directory of the defaults (see [default_wiki]). *)
Variable home : path.

Definition wiki_at (p : path) : wiki :=
  let d := default_wiki home in
  Wiki p (w_html d) (w_name d) (w_css d) (w_ext d) (w_diary d).
(** utils.rs:65-85. *)
Fixpoint extra_wikis (fs : fsys) (paths : list path) : option (list wiki) :=
  match paths with
  | [] => Some []
  | p :: paths' =>
      match canonicalize fs p with
      | None => None
      | Some q =>
          let here := if is_dir fs q then [wiki_at q]
                      else match path_parent q with Some d => [wiki_at d] | None => [] end in
          match extra_wikis fs paths' with Some l => Some (here ++ l) | None => None end
      end
  end.
(** [config]: the wikis of the configuration file; [vim]: the result of
    [load_vimwiki_list] ([None]: an error). *)
Definition load_html_config (opt : copt) (config : list wiki) (vim : option (list wiki))
  (extra : list path) (fs : fsys) : option (list wiki) :=
  let ws := match config with
            | [] => match vim with Some l => l ++ config | None => config end
            | _ => if o_merge opt then match vim with Some l => l ++ config | None => config end else config
            end in
  match extra_wikis fs extra with
  | None => None
  | Some l =>
      Some (map snd (filter (fun x => included (o_include opt) (fst x) (w_name (snd x)))
                       (enumerate (ws ++ l))))
  end.
End Config.

(** * Loading (ast.rs) *)

(** ast.rs:15-18, 87-100. *)
Record wiki_file := WikiFile { wf_path : path; wf_sum : str; wf_data : page }.
Record ast_wiki := AstWiki { aw_index : nat; aw_name : option str; aw_path : path; aw_files : list wiki_file }.
Definition ast := list ast_wiki.

(** The outcome of parsing a page ([Language::from_vimwiki_str(..).parse]). *)
Inductive pres := POk (p : page) | PErr | PPanic.

Section Load.
(** [str::from_utf8(..).is_ok()]: what [read_to_string] checks. *)
Variable utf8 : str -> bool.
(** [format!("{:x}", Sha1::digest(..))]. *)
Variable sha : str -> str.
(** The parser, see ModelBlock. *)
Variable parse : str -> pres.
(** [serde_json]: the text written for a page (all of it, or what was written
    before an error) and the page read from a text. *)
Variable ser : page -> str.
Variable de : str -> option page.

Definition read_to_string (p : path) : io str :=
  s <- read_bytes p ; if utf8 s then ret s else fail.

Definition cache_path (cache : path) (sum : str) : path := path_join cache [CNorm sum].

(** ast.rs:233-271: the page found in the cache. *)
Definition cached_page (cache : path) (no_cache : bool) (sum : str) : io (option page) := fun fs =>
  if no_cache then ([], IOk None)
  else match fs_get (cache_path cache sum) fs with
       | None => ([], IOk None)                                    (* !exists *)
       | Some n =>
           match match n with NdFile d => de d | NdDir => None end with
           | Some pg => ([], IOk (Some pg))
           | None => (_ <- ignore (remove_file (cache_path cache sum)) ; ret None) fs
           end
       end.

(** ast.rs:213-323 [load_wiki_file]. *)
Definition load_wiki_file (p cache : path) (no_cache : bool) : io wiki_file :=
  text <- read_to_string p ;
  let sum := sha text in
  found <- cached_page cache no_cache sum ;
  match found with
  | Some pg => ret (WikiFile p sum pg)
  | None =>
      match parse text with
      | POk pg =>
          _ <- ignore (write_file (cache_path cache sum) (ser pg)) ;
          ret (WikiFile p sum pg)
      | PErr => fail
      | PPanic => fun _ => ([], IPanic)
      end
  end.

(** [Vec::get_mut(i)] and push. *)
Fixpoint push_file (i : nat) (f : wiki_file) (a : ast) : ast :=
  match a, i with
  | [], _ => []
  | w :: a', 0 => AstWiki (aw_index w) (aw_name w) (aw_path w) (aw_files w ++ [f]) :: a'
  | w :: a', S j => w :: push_file j f a'
  end.

(** The extension filter of a walk (ast.rs:155-159, convert.rs:97-100). *)
Definition has_ext (ext : str) (p : path) : bool :=
  match extension p with Some e => utf8 e && str_eqb e ext | None => false end.

(** ast.rs:152-165: one wiki. *)
Definition load_wiki (cache : path) (no_cache : bool) (a : ast) (x : nat * wiki) : io ast := fun fs =>
  let a := a ++ [AstWiki (fst x) (w_name (snd x)) (w_path (snd x)) []] in
  fold_io (fun a p => f <- load_wiki_file p cache no_cache ; ret (push_file (fst x) f a))
    (filter (has_ext (w_ext (snd x))) (walk fs (w_path (snd x)))) a fs.

Definition ast_sums (a : ast) : list str := flat_map (fun w => map wf_sum (aw_files w)) a.

(** ast.rs:183-207: what happens to one file below the cache directory. *)
Definition prune_one (sums : list str) (p : path) : io unit :=
  match file_name p with
  | Some name =>
      if negb (utf8 name) || negb (existsb (str_eqb name) sums) then ignore (remove_file p) else ret tt
  | None => ret tt
  end.

(** ast.rs:108-211 [load_ast]. *)
Definition load_ast (wikis : list wiki) (include : list index_or_name)
  (cache : path) (no_cache no_prune : bool) : io ast :=
  _ <- (if no_cache then ret tt else create_dir_all cache) ;
  a <- fold_io (load_wiki cache no_cache)
         (filter (fun x => included include (fst x) (w_name (snd x))) (enumerate wikis)) [] ;
  _ <- (if no_prune || no_cache then ret tt
        else fun fs => each_io (prune_one (ast_sums a)) (walk fs cache) fs) ;
  ret a.

(** ast.rs:77-84 [find_file_by_path]. *)
Fixpoint find_file_by_path (a : ast) (p : path) : option wiki_file :=
  match a with
  | [] => None
  | w :: a' =>
      match find (fun f => path_eqb (wf_path f) p) (aw_files w) with
      | Some f => Some f
      | None => find_file_by_path a' p
      end
  end.

(** ast.rs:36-74 [Ast::load_file]: the file is added to the first wiki that
    contains it, or to a new one. *)
Fixpoint add_file (f : wiki_file) (a : ast) : option ast :=
  match a with
  | [] => None
  | w :: a' =>
      if path_starts_with (wf_path f) (aw_path w)
      then Some (AstWiki (aw_index w) (aw_name w) (aw_path w) (aw_files w ++ [f]) :: a')
      else option_map (cons w) (add_file f a')
  end.
Definition load_file (a : ast) (p cache : path) (no_cache : bool) : io (ast * wiki_file) :=
  f <- load_wiki_file p cache no_cache ;
  let a' := match add_file f a with
            | Some a' => a'
            | None => a ++ [AstWiki (length a) None
                              (match path_parent p with Some q => q | None => [] end) [f]]
            end in
  match find_file_by_path a' p with
  | Some g => ret (a', g)
  | None => fail
  end.

(** * Converting (subcommand/convert.rs) *)

(** [to_html_page] with the given wikis, current wiki and page path, see
    ModelHtml. *)
Variable html : list wiki -> option nat -> path -> page -> ires str.
Variable home : path.

(** convert.rs:128-186 [process_file]. *)
Definition convert_file (wikis : list wiki) (index : option nat) (a : ast) (p cache : path)
  (no_cache stdout : bool) : io ast :=
  af <- match find_file_by_path a p with
        | Some f => ret (a, f)
        | None => load_file a p cache no_cache
        end ;
  text <- (fun _ => ([], html wikis index p (wf_data (snd af)))) ;
  _ <- (if stdout then (fun _ => ([APrint (text ++ [b_nl])], IOk tt))
        else
          let w := match find_wiki_index_by_path (PathsConfig wikis None []) p with
                   | Some i => match nth_error wikis i with Some w => w | None => default_wiki home end
                   | None => default_wiki home
                   end in
          match make_output_path w p (bs "html") with
          | None => fun _ => ([], IPanic)
          | Some out =>
              _ <- match path_parent out with Some q => create_dir_all q | None => ret tt end ;
              write_file out text
          end) ;
  ret (fst af).

(** convert.rs:76-126 [process_path]. *)
Definition convert_path (wikis : list wiki) (cache : path) (no_cache stdout : bool) (ext : str)
  (a : ast) (root : path) : io ast := fun fs =>
  fold_io (fun a p =>
      convert_file wikis (find_wiki_index_by_path (PathsConfig wikis None []) p) a p cache no_cache stdout)
    (filter (has_ext ext) (walk fs root)) a fs.

(** convert.rs:7-74 [convert], for a run without additional paths; [css]: the
    text of [DEFAULT_STYLE_FILE]. *)
Variable css : str.
Definition convert_wikis (opt : copt) (stdout with_css : bool) (wikis : list wiki) (a : ast) : io ast :=
  fold_io (fun a (x : nat * wiki) =>
      a <- convert_path wikis (o_cache opt) (o_no_cache opt) stdout (w_ext (snd x)) a (w_path (snd x)) ;
      _ <- (if negb stdout && with_css
            then write_file (path_join (w_html (snd x)) [CNorm (bs "style.css")]) css else ret tt) ;
      ret a)
    (filter (fun x => included (o_include opt) (fst x) (w_name (snd x))) (enumerate wikis)) a.
(** ... and for a run with additional paths, without [include_vimwiki_css]. *)
Definition convert_extra (canonicalize : fsys -> path -> option path) (opt : copt) (stdout : bool)
  (wikis : list wiki) (extra : list path) (a : ast) : io ast :=
  fold_io (fun a p => fun fs =>
      match canonicalize fs p with
      | None => ([], IErr)
      | Some q => convert_path wikis (o_cache opt) (o_no_cache opt) stdout (w_ext (default_wiki home)) a q fs
      end) extra a.

(** lib.rs:34-117: [vimwiki convert] without additional paths. *)
Definition run_convert (opt : copt) (stdout with_css : bool) (config : list wiki) (vim : option (list wiki)) : io unit := fun fs =>
  match load_html_config (fun _ _ => None) home opt config vim [] fs with
  | None => ([], IErr)
  | Some wikis =>
      (a <- load_ast wikis (o_include opt) (o_cache opt) (o_no_cache opt) (o_no_prune opt) ;
       _ <- convert_wikis opt stdout with_css wikis a ; ret tt) fs
  end.

(** * Formatting (subcommand/format.rs) *)

(** [to_vimwiki_string], see ModelVimwiki; [None] is a panic. *)
Variable format : page -> option str.

(** format.rs:61-105 [process_file]. *)
Definition format_file (inline : bool) (p : path) : io unit :=
  text <- read_to_string p ;
  match parse text with
  | POk pg =>
      match format pg with
      | Some out => if inline then write_file p out else (fun _ => ([APrint (out ++ [b_nl])], IOk tt))
      | None => fun _ => ([], IPanic)
      end
  | PErr => fail
  | PPanic => fun _ => ([], IPanic)
  end.
(** format.rs:7-59 [format]. *)
Definition format_run (canonicalize : fsys -> path -> option path) (inline : bool) (exts : list str) (paths : list path) : io unit :=
  each_io (fun p fs =>
    match canonicalize fs p with
    | None => ([], IErr)
    | Some q =>
        if is_file fs q then format_file inline q fs
        else each_io (fun r =>
               match extension r with
               | Some e => if utf8 e && existsb (str_eqb e) exts then format_file inline r else ret tt
               | None => ret tt
               end) (walk fs q) fs
    end) paths.

End Load.
