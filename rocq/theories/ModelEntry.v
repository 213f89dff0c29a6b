(** The entry points [Language::parse] of /repo/vimwiki-core/src/lang/mod.rs
    and the values of the command line option --include of
    /repo/vimwiki-cli/src/opt.rs. *)
From Verif Require Import Base ModelSpan ModelComb ModelAst ModelBlock ModelElem ModelCli.

(** lang/mod.rs:37-42 [Language]. *)
Inductive language := Vimwiki (s : str) | Markdown (s : str) | Mediawiki (s : str).

(** The result of [parse]: a value, an error, a panic; the last case stands
    for a loop that does not end. *)
Inductive answer (A : Type) := Got (v : A) | Failed | Crashed | Looped.
Arguments Got {A} v.
Arguments Failed {A}.
Arguments Crashed {A}.
Arguments Looped {A}.

(** lang/mod.rs:85-98 [impl_from_language]: what is left of the text after the
    element is dropped. *)
Definition from_language {A} (p : parser A) (l : language) : answer A :=
  match l with
  | Vimwiki x => match p (span_of x) with
                 | Ok _ v => Got v
                 | Err => Failed
                 | Panic => Crashed
                 | OutOfFuel => Looped
                 end
  | _ => Failed
  end.

Section Entry.
Variable uri_parse : str -> option uri.
Variable date_parse : str -> option date.
(** lang/mod.rs:101-105 for [Page] and [Located<BlockElement>]. *)
Definition parse_as_page := from_language (p_page uri_parse date_parse).
Definition parse_as_block := from_language (top_level_block_element uri_parse date_parse).
(** lang/mod.rs:116-190: the kinds of blocks. *)
Definition parse_as_header := from_language (p_header uri_parse date_parse).
Definition parse_as_def_list := from_language (p_definition_list uri_parse date_parse).
Definition parse_as_list := from_language (p_list uri_parse date_parse).
Definition parse_as_table := from_language (p_table uri_parse date_parse).
Definition parse_as_paragraph := from_language (p_paragraph uri_parse date_parse).
Definition parse_as_code := from_language p_code_block.
Definition parse_as_math := from_language p_math_block.
Definition parse_as_blockquote := from_language p_blockquote.
Definition parse_as_divider := from_language p_divider.
Definition parse_as_placeholder := from_language (p_placeholder date_parse).
End Entry.

(** opt.rs:220-229 [IndexOrName::from_str]. *)
Definition index_or_name_of (s : str) : index_or_name :=
  match parse_usize s with
  | Some n => IxIndex (N.to_nat n)
  | None => IxName s
  end.
