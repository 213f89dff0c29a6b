(** The program as a whole: /repo/vimwiki-cli/src/lib.rs and main.rs, with the
    exit status. *)
From Verif Require Import Base ModelSpan ModelAst ModelPath ModelCli.
Local Open Scope nat_scope.

(** The subcommands; what they do is in ModelCli and ModelInspect. *)
Section Run.
Variable utf8 : str -> bool.
Variable sha : str -> str.
Variable parse : str -> pres.
Variable ser : page -> str.
Variable de : str -> option page.
Variable canonicalize : fsys -> path -> option path.
Variable home : path.

(** lib.rs:16-20 [ExitCodes]; a panic of the main thread gives 101, and running
    to the end gives 0. *)
Definition exit_of {A} (r : ires A) : nat :=
  match r with IOk _ => 0 | IErr => 3 | IPanic => 101 end.
(** lib.rs:34-76 [run] and 90-117 [load_html_config_and_ast] for the
    subcommands that load wikis.  [config]: the wikis of the configuration file,
    [None] if it cannot be read. *)
Definition run_wikis (opt : copt) (config : option (list wiki)) (vim : option (list wiki)) (extra : list path)
  (sub : list wiki -> ast -> io unit) (fs : fsys) : list action * nat :=
  match config with
  | None => ([], 1)
  | Some c =>
      match load_html_config canonicalize home opt c vim extra fs with
      | None => ([], 1)
      | Some ws =>
          match load_ast utf8 sha parse ser de ws (o_include opt) (o_cache opt) (o_no_cache opt) (o_no_prune opt) fs with
          | (l, IOk a) => let (l', r) := sub ws a (act_all fs l) in (l ++ l', exit_of r)
          | (l, IErr) => (l, 2)
          | (l, IPanic) => (l, 101)
          end
      end
  end.
(** lib.rs:79-88: [format] has a configuration of its own and no wikis;
    [config] is false if it cannot be read. *)
Definition run_format (config : bool) (sub : io unit) (fs : fsys) : list action * nat :=
  if config then let (l, r) := sub fs in (l, exit_of r) else ([], 1).
(** subcommand/serve.rs:5-12. *)
Definition serve (_ : list wiki) (_ : ast) : io unit := ret tt.
End Run.
