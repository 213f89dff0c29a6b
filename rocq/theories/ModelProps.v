(** Properties of a link given and read from JavaScript:
    /repo/vimwiki-wasm/src/elements.rs. *)
From Verif Require Import Base ModelSpan ModelComb ModelAst ModelTable ModelLink ModelElem ModelWasm.

(** A JavaScript string as the sequence of its code points: a character, given
    in UTF-8, or half of a surrogate pair without the other half. *)
Inductive jchar := JC (c : str) | Lone (n : nat).
Definition jstr := list jchar.
(** [JsValue::as_string] and [&str] arguments of wasm-bindgen encode with
    [TextEncoder], which writes U+FFFD for lone surrogates. *)
Definition to_rust (w : jstr) : str := flat_map (fun j => match j with JC c => c | Lone _ => [xef; xbf; xbd] end) w.
(** Values of an object: strings and everything else. *)
Inductive jsval := JStr (w : jstr) | JOther.

(** elements.rs:1384-1400: the entries of the object whose value is a string,
    collected into a hash map. *)
Definition js_props (entries : list (jstr * jsval)) : list (str * str) :=
  collect_map (flat_map (fun e => match snd e with JStr w => [(to_rust (fst e), to_rust w)] | JOther => [] end) entries).

Section Uri.
Variable uri_parse : str -> option uri.
(** elements.rs:1374-1406 [new_transclusion_link]; [None] is the error. *)
Definition js_transclusion (uri desc : str) (entries : list (jstr * jsval)) : option link :=
  option_map (fun u => LTransclusion (LinkData u (Some (js_description uri_parse desc)) (Some (js_props entries)))) (uri_parse uri).
End Uri.

(** elements.rs:1439-1443 [get_property]. *)
Definition js_get_property (l : link) (name : jstr) : option str :=
  match ld_props (link_get_data l) with Some m => map_get (to_rust name) m | None => None end.
(** elements.rs:1422-1436 [properties], the entries of the object in the order
    of the hash map. *)
Definition js_properties (l : link) : option (list (str * str)) := ld_props (link_get_data l).
