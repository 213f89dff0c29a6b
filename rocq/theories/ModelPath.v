(** Paths, wiki configurations and link resolution: model of
    /repo/vimwiki-core/src/lang/output/html/{utils,config}.rs.

    A path is the list of its components, as produced by [Path::components] on
    Unix; two paths with the same components are equal in Rust, and all
    operations used below respect this.  Separators, repeated separators and
    inner "." are therefore not represented. *)
From Verif Require Import Base ModelSpan ModelAst ModelLink ModelElem.

Inductive comp := CRoot | CCur | CParent | CNorm (s : str).
Definition path := list comp.

Definition is_cur (c : comp) : bool := match c with CCur => true | _ => false end.
Definition is_root (c : comp) : bool := match c with CRoot => true | _ => false end.

(** One name between separators. *)
Definition classify (s : str) : comp :=
  if str_eqb s (bs ".") then CCur else if str_eqb s (bs "..") then CParent else CNorm s.

(** "." is a component only at the start of a relative path. *)
Definition drop_cur (l : list comp) : list comp := filter (fun c => negb (is_cur c)) l.
Definition clean (l : list comp) : path :=
  match l with
  | [] => []
  | c :: l' => c :: drop_cur l'
  end.

(** [Path::new(s).components()]. *)
Definition path_of_str (s : str) : path :=
  let names := map classify (filter (fun x => match x with [] => false | _ => true end) (split_on x2f s)) in
  match s with
  | x2f :: _ => clean (CRoot :: names)
  | _ => clean names
  end.

(** [Path::has_root], [is_absolute] (Unix). *)
Definition has_root (p : path) : bool := match p with CRoot :: _ => true | _ => false end.

(** [Path::join], [PathBuf::push]. *)
Definition path_join (p q : path) : path := if has_root q then q else clean (p ++ q).

(** [Path::parent]; [PathBuf::pop] keeps the path when there is none. *)
Definition path_parent (p : path) : option path :=
  match rev p with
  | [] | CRoot :: _ => None
  | _ :: r => Some (rev r)
  end.
Definition path_pop (p : path) : path := match path_parent p with Some q => q | None => p end.

Definition comp_eqb (a b : comp) : bool :=
  match a, b with
  | CRoot, CRoot | CCur, CCur | CParent, CParent => true
  | CNorm x, CNorm y => str_eqb x y
  | _, _ => false
  end.

(** [Path::strip_prefix]; [Path::starts_with] is its success. *)
Fixpoint strip_prefix (p base : path) : option path :=
  match base, p with
  | [], _ => Some p
  | b :: base', c :: p' => if comp_eqb b c then strip_prefix p' base' else None
  | _ :: _, [] => None
  end.
Definition path_starts_with (p base : path) : bool :=
  match strip_prefix p base with Some _ => true | None => false end.

(** [Path::file_name]. *)
Definition file_name (p : path) : option str :=
  match rev p with CNorm s :: _ => Some s | _ => None end.

(** std's [rsplit_file_at_dot]: the part before the last dot and the part
    after it; without a dot, or with an initial dot only, the whole name and
    nothing. *)
Definition rsplit_dot (name : str) : str * option str :=
  match find_pos (fun b => beqb b x2e) (rev name) with
  | None => (name, None)
  | Some i =>
      let n := length name - 1 - i in
      match firstn n name with
      | [] => (name, None)
      | before => (before, Some (skipn (S n) name))
      end
  end.
(** [Path::file_stem], [Path::extension]. *)
Definition file_stem (p : path) : option str := option_map (fun n => fst (rsplit_dot n)) (file_name p).
Definition extension (p : path) : option str :=
  match file_name p with Some n => snd (rsplit_dot n) | None => None end.

(** [Path::with_extension]. *)
Definition with_extension (p : path) (ext : str) : path :=
  match file_stem p with
  | None => p
  | Some stem =>
      clean (removelast p ++
             [classify (stem ++ match ext with [] => [] | _ => bs "." ++ ext end)])
  end.

(** * utils.rs *)

(** utils.rs:75-101 [normalize_path]; prefixes exist on Windows only. *)
Definition normalize_step (ret : path) (c : comp) : path :=
  match c with
  | CRoot => path_join ret [CRoot]
  | CCur => ret
  | CParent => path_pop ret
  | CNorm s => path_join ret [CNorm s]
  end.
Definition normalize_path (p : path) : path := fold_left normalize_step p [].

(** utils.rs:105-126 [path_to_uri_string]. *)
Definition comp_str (c : comp) : list str :=
  match c with CRoot => [] | CCur => [bs "."] | CParent => [bs ".."] | CNorm s => [s] end.
Definition path_to_uri_string (p : path) : str :=
  let out := join (bs "/") (flat_map comp_str p) in
  if has_root p then bs "/" ++ out else out.

(** utils.rs:389-399 [make_path_relative]. *)
Definition make_path_relative (p : path) : path := clean (filter (fun c => negb (is_root c)) p).

(** * config.rs *)

(** config.rs:306-337 [HtmlWikiConfig]. *)
Record wiki := Wiki {
  w_path : path;
  w_html : path;
  w_name : option str;
  w_css : str;
  w_ext : str;
  w_diary : path
}.

(** config.rs:387-389 [path_within]. *)
Definition path_within (w : wiki) (p : path) : option path := strip_prefix p (w_path w).

(** config.rs:362-383 [path_to_root]. *)
Definition path_to_root (w : wiki) (p : path) : option path :=
  match path_within w p with
  | None => None
  | Some q =>
      let hops := length q in
      if 0 <? hops then Some (repeat CParent (hops - 1)) else None
  end.

(** config.rs:409-428 [make_output_path]; [None] is the panic of
    [expect("Impossible: file should always be within wiki")]. *)
Definition make_output_path (w : wiki) (input : path) (ext : str) : option path :=
  let input :=
    if negb (has_root input) || negb (path_starts_with input (w_path w))
    then path_join (w_path w) (make_path_relative input) else input in
  match strip_prefix input (w_path w) with
  | None => None
  | Some rel => Some (with_extension (path_join (w_html w) rel) ext)
  end.

(** config.rs:35-75, 267-273 [HtmlConfig] and its runtime part: the fields
    that decide paths. *)
Record paths_config := PathsConfig {
  pc_wikis : list wiki;
  pc_index : option nat;
  pc_page : path
}.

(** config.rs:225-238 [find_wiki_index_by_path]; [max_by_key] returns the last
    of several maxima. *)
Fixpoint max_by_key {A} (key : A -> nat) (l : list A) : option A :=
  match l with
  | [] => None
  | x :: l' => match max_by_key key l' with
               | None => Some x
               | Some y => if key y <? key x then Some x else Some y
               end
  end.
Definition enumerate {A} (l : list A) : list (nat * A) := combine (seq 0 (length l)) l.
Definition find_wiki_index_by_path (c : paths_config) (p : path) : option nat :=
  option_map fst
    (max_by_key (fun x => length (w_path (snd x)))
       (filter (fun x => path_starts_with p (w_path (snd x))) (enumerate (pc_wikis c)))).

(** config.rs:189-191, 195-217 [find_wiki_by_index], [find_wiki_by_name]. *)
Definition find_wiki_by_index (c : paths_config) (i : nat) : option wiki := nth_error (pc_wikis c) i.
Definition find_wiki_index_by_name (c : paths_config) (n : str) : option nat :=
  find_pos (fun w => match w_name w with Some m => str_eqb m n | None => false end) (pc_wikis c).
Definition find_wiki_by_name (c : paths_config) (n : str) : option wiki :=
  match find_wiki_index_by_name c n with Some i => find_wiki_by_index c i | None => None end.

(** config.rs:180-186 [find_active_wiki]. *)
Definition find_active_wiki (c : paths_config) : option wiki :=
  match pc_index c with Some i => find_wiki_by_index c i | None => None end.

(** config.rs:278-287 [to_tmp_wiki], 339-349, 431-474 the defaults.  The home
    directory is a parameter. *)
Definition default_wiki (home : path) : wiki :=
  Wiki (path_join home [CNorm (bs "vimwiki")]) (path_join home [CNorm (bs "vimwiki_html")])
       None (bs "style.css") (bs "wiki") [CNorm (bs "diary")].
Definition tmp_wiki (home : path) (c : paths_config) : wiki :=
  let d := default_wiki home in
  Wiki (match path_parent (pc_page c) with Some p => p | None => [] end)
       (w_html d) (w_name d) (w_css d) (w_ext d) (w_diary d).

(** config.rs:167-171 [to_current_wiki]. *)
Definition current_wiki (home : path) (c : paths_config) : wiki :=
  match find_active_wiki c with Some w => w | None => tmp_wiki home c end.

(** config.rs:156-162 [as_active_page_path_within_wiki]; [None] is the panic
    of [expect]. *)
Definition page_within_wiki (home : path) (c : paths_config) : option path :=
  path_within (current_wiki home c) (pc_page c).

(** config.rs:124-128 [to_active_page_path_to_wiki_root]. *)
Definition page_to_root (c : paths_config) : path :=
  match find_active_wiki c with
  | Some w => match path_to_root w (pc_page c) with Some p => p | None => [] end
  | None => []
  end.

(** convert.rs:74-93 the value of the template variable root_path. *)
Definition root_text (c : paths_config) : str :=
  match path_to_uri_string (page_to_root c) with
  | [] => []
  | s => s ++ bs "/"
  end.

(** * Relative links *)

(** [RelativePath::relative] of the external crate relative-path 1.4, with its
    [relative_traversal]. *)
Definition rel_step (buf : path) (c : comp) : path :=
  match c with
  | CRoot | CCur => buf
  | CParent => match rev buf with
               | CParent :: _ | [] => buf ++ [CParent]
               | _ :: r => rev r
               end
  | CNorm s => buf ++ [CNorm s]
  end.
Definition traversal (p : path) : path := fold_left rel_step p [].
Fixpoint strip_common (a b : path) : path * path :=
  match a, b with
  | x :: a', y :: b' => if comp_eqb x y then strip_common a' b' else (a, b)
  | _, _ => (a, b)
  end.
Definition rel_relative (from to : path) : path :=
  let '(f, t) := strip_common (traversal from) (traversal to) in
  match f with
  | CParent :: _ => []
  | _ => map (fun _ => CParent) f ++ t
  end.

(** utils.rs:365-386 [make_relative_link], up to the text given to
    [RelativeReference::try_from]. *)
Definition relative_link_text (src target : path) : str :=
  let r := rel_relative (make_path_relative src) (make_path_relative target) in
  let r := match r with CParent :: r' => r' | _ => r end in
  join (bs "/") (flat_map comp_str r).

(** * Link resolution *)

(** data.rs:159-174 [to_path_buf]. *)
Definition data_path (d : link_data) : path :=
  let p := fold_left (fun p seg => path_join p (path_of_str seg)) (u_segs (ld_uri d)) [] in
  if u_abs (ld_uri d) then path_join [CRoot] p else p.

(** anchor.rs:123-131 the text of the fragment made of an anchor. *)
Definition anchor_dashed (a : anchor) : str := join (bs "-") a.

Inductive resolved :=
| RsUri (u : uri)
| RsMissingIndex (i : N)
| RsMissingName (n : str)
| RsBadReference
| RsPanic.

Section Resolve.
(** [RelativeReference::try_from] and [Fragment::try_from] of the external
    crate uriparse. *)
Variable rel_parse : str -> option uri.
Variable frag_parse : str -> option str.

(** utils.rs:201-211: the relative link with the anchor of the target. *)
Definition with_fragment (u : uri) (f : option str) : uri :=
  Uri (u_scheme u) (u_authority u) (u_abs u) (u_segs u) (u_query u) f.
Definition link_to (src_out : path) (target : option path) (a : option anchor) : resolved :=
  match target with
  | None => RsPanic
  | Some t =>
      match rel_parse (relative_link_text src_out t) with
      | None => RsBadReference
      | Some u => RsUri (match a with
                         | Some a => with_fragment u (frag_parse (anchor_dashed a))
                         | None => u
                         end)
      end
  end.

(** The directory of a page: [src.parent().map(to_path_buf).unwrap_or_default()]. *)
Definition dir_of (p : path) : path := match path_parent p with Some q => q | None => [] end.

(** utils.rs:182-199, 309-326: absolute targets are below the wiki root,
    relative ones below the directory of the page. *)
Definition target_output (w : wiki) (src p : path) (abs : bool) (ext : str) : option path :=
  if abs then make_output_path w p ext else make_output_path w (path_join (dir_of src) p) ext.

(** utils.rs:345-361 [make_diary_absolute_output_path]. *)
Definition diary_output (w : wiki) (d : date) (ext : str) : option path :=
  make_output_path w
    (path_join (path_join (w_path w) (w_diary w)) (path_of_str (date_display d))) ext.

(** utils.rs:157-342 [resolve_link]. *)
Definition resolve_link (c : paths_config) (w : wiki) (src : path) (target : link) : resolved :=
  let html := bs "html" in
  match make_output_path w src html with
  | None => RsPanic
  | Some src_out =>
      match target with
      | LWiki d =>
          if is_local d && negb (is_local_anchor d) then
            let p := if is_path_dir d then path_join (data_path d) [CNorm (bs "index")] else data_path d in
            link_to src_out (target_output w src p (u_abs (ld_uri d)) html) (to_anchor d)
          else RsUri (ld_uri d)
      | LIndexed i d =>
          match find_wiki_by_index c (N.to_nat i) with
          | None => RsMissingIndex i
          | Some w' => link_to src_out (make_output_path w' (data_path d) html) (to_anchor d)
          end
      | LNamed n d =>
          match find_wiki_by_name c n with
          | None => RsMissingName n
          | Some w' => link_to src_out (make_output_path w' (data_path d) html) (to_anchor d)
          end
      | LDiary dt d => link_to src_out (diary_output w dt html) (to_anchor d)
      | LRaw d => RsUri (ld_uri d)
      | LTransclusion d =>
          if is_local d then
            let p := data_path d in
            let ext := match extension p with Some e => e | None => [] end in
            link_to src_out (target_output w src p (u_abs (ld_uri d)) ext) None
          else RsUri (ld_uri d)
      end
  end.
End Resolve.
