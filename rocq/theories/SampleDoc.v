(** A document with every kind of element, used for the non-vacuity examples
    beside the theorems. *)
From Verif Require Import Base ModelSpan ModelComb ModelAst ModelTable ModelLink ModelInline ModelBlock
  ModelOracle SpecDoc SpecBlock SpecTree.

Definition ln s := bs s ++ [b_nl].
Definition sample : str :=
  ln "= A *b* =" ++ ln "some `code` and $x$" ++ ln "" ++ ln "- item [[x]]" ++ ln "- [X] second" ++
  ln "  1. nested" ++ ln "" ++ ln "|a|b|" ++ ln "|-|-|" ++ ln "|c|>|" ++ ln "" ++ ln "t:: d" ++
  ln ":: e"++ ln "" ++ ln "----" ++ ln "{{{rust" ++ ln "  let x = 1;" ++ ln "}}}" ++ ln "{{$" ++
  ln "x" ++ ln "}}$" ++ ln "> quote" ++ ln "> more" ++ ln "" ++ ln "%title My page" ++
  ln ":tag:other: text %%comment".

Definition sample_page : page :=
  Eval vm_compute in match parse_page rfc_uri_parse ymd_parse sample with Ok _ p => p | _ => [] end.
Definition sample_rest : span := Span sample 199 199 0.

Lemma sample_parses : parse_page rfc_uri_parse ymd_parse sample = Ok sample_rest sample_page.
Proof. vm_compute. reflexivity. Qed.

(** The [k]-th element of the sample page. *)
Ltac sample_element k := refine (nth_error_In _ k _); vm_compute; reflexivity.
