(** [vimwiki inspect]: model of /repo/vimwiki-cli/src/subcommand/inspect.rs, and
    the parser and serializer as the command line program uses them. *)
From Verif Require Import Base ModelSpan ModelComb ModelAst ModelLink ModelInline ModelBlock ModelPath ModelCli ModelJson.

(** ast.rs:277-283: [Language::from_vimwiki_str(&text).parse::<Page>()]. *)
Definition parse_text (up : str -> option uri) (dp : str -> option date) (text : str) : pres :=
  match parse_page up dp text with
  | Ok _ p => POk p
  | Panic => PPanic
  | _ => PErr
  end.

Section Inspect.
Variable utf8 : str -> bool.
Variable sha : str -> str.
Variable parse : str -> pres.
Variable ser : page -> str.
Variable de : str -> option page.
Variable canonicalize : fsys -> path -> option path.
Variable home : path.
Variable uri_json : uri -> json.
Variable date_str : date -> str.
(** [Path::to_str]: [None] when the path is not UTF-8 (an error in serde's
    [Serialize for Path]). *)
Variable path_str : path -> option str.
(** [jsonpath_lib::select]: [None] is an error. *)
Variable select : json -> str -> option (list json).

Definition j_path (p : path) : json := match path_str p with Some s => JStr s | None => JStop end.
(** ast.rs:95-100. *)
Definition j_file (f : wiki_file) : json :=
  JObj [jpair "path" (j_path (wf_path f)); jpair "checksum" (JStr (wf_sum f));
        jpair "data" (j_page uri_json date_str (wf_data f))].
(** ast.rs:87-93. *)
Definition j_ast_wiki (w : ast_wiki) : json :=
  JObj [jpair "index" (jnat (aw_index w)); jpair "name" (jopt JStr (aw_name w));
        jpair "path" (j_path (aw_path w)); jpair "files" (JArr (map j_file (aw_files w)))].
(** ast.rs:15-18. *)
Definition j_ast (a : ast) : json := JObj [jpair "wikis" (JArr (map j_ast_wiki a))].

(** inspect.rs:9-37.  [to_value] fails where the serializer does; the order of
    the fields of a [Value] is left to [select]. *)
Definition inspect (output : option path) (query : str) (a : ast) : io unit :=
  if whole (j_ast a) then
    match select (j_ast a) query with
    | None => fail
    | Some vs =>
        let text := fst (jprint 0 (JArr vs)) in
        match output with
        | Some p => write_file p text
        | None => fun _ => ([APrint text], IOk tt)
        end
    end
  else fail.

(** lib.rs:59-63, 90-127. *)
Definition run_inspect (opt : copt) (output : option path) (query : str) (config : list wiki)
  (vim : option (list wiki)) (extra : list path) : io unit := fun fs =>
  match load_html_config canonicalize home opt config vim extra fs with
  | None => ([], IErr)
  | Some wikis =>
      (ModelCli.bind (load_ast utf8 sha parse ser de wikis (o_include opt) (o_cache opt) (o_no_cache opt) (o_no_prune opt))
         (inspect output query)) fs
  end.
End Inspect.
