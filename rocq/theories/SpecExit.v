(** What an action touches. *)
From Verif Require Import Base ModelPath ModelCli SpecCli.

(** An action on the cache: a file below the cache directory, or a directory on
    the way to it. *)
Definition on_cache (cache : path) (a : action) : Prop :=
  match a with
  | AWrite p _ | ADel p => below cache p
  | AMkdir p => below p cache
  | APrint _ => False
  end.
