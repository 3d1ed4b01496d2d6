(** The JSON output: jarl/src/output_format.rs:110-121 and 215-240 ([JsonEmitter]), the [Serialize]
    implementations derived in diagnostic.rs:10-61 and location.rs:4-8, and the pretty printer of the
    crate serde_json (to_writer_pretty).  [TextRange] is serialized as the pair of its ends.
    Simplification: file names are UTF-8 (the serialization of others fails). *)
From Verif Require Import Model.Text Model.Base Model.Output.

(** serde's data model, as far as it is used. *)
Inductive json :=
| JNull | JBool (b : bool) | JNum (n : nat) | JStr (t : text)
| JArr (l : list json) | JObj (l : list (text * json)).

(** diagnostic.rs:10-61: all the fields, in the order of declaration. *)
Record jdiag := mk_jd {
  j_name : text; j_body : text; j_suggestion : option text; j_filename : text;
  j_start : nat; j_end : nat; j_location : option (nat * nat);
  j_content : text; j_fix_start : nat; j_fix_end : nat; j_skip : bool }.
Definition diag_json (d : jdiag) : json :=
  JObj [(lit "message", JObj [(lit "name", JStr (j_name d)); (lit "body", JStr (j_body d));
                              (lit "suggestion", match j_suggestion d with Some s => JStr s | None => JNull end)]);
        (lit "filename", JStr (j_filename d));
        (lit "range", JArr [JNum (j_start d); JNum (j_end d)]);
        (lit "location", match j_location d with
                         | Some (r, c) => JObj [(lit "row", JNum r); (lit "column", JNum c)]
                         | None => JNull
                         end);
        (lit "fix", JObj [(lit "content", JStr (j_content d)); (lit "start", JNum (j_fix_start d));
                          (lit "end", JNum (j_fix_end d)); (lit "to_skip", JBool (j_skip d))])].
(** output_format.rs:110-121, 226-235. *)
Definition error_json (e : text * text) : json := JObj [(lit "file", JStr (fst e)); (lit "error", JStr (snd e))].
Definition output_json (ds : list jdiag) (es : list (text * text)) : json :=
  JObj [(lit "diagnostics", JArr (map diag_json ds)); (lit "errors", JArr (map error_json es))].

(** serde_json ser.rs [format_escaped_str], [ESCAPE], [CharEscape]. *)
Definition hex (n : N) : char := if (n <? 10)%N then (48 + n)%N else (87 + n)%N.
Definition escape (c : char) : text :=
  if (c =? 34)%N then lit "\" ++ [34%N]
  else if (c =? 92)%N then lit "\\"
  else if (c =? 8)%N then lit "\b"
  else if (c =? 12)%N then lit "\f"
  else if (c =? 10)%N then lit "\n"
  else if (c =? 13)%N then lit "\r"
  else if (c =? 9)%N then lit "\t"
  else if (c <? 32)%N then lit "\u00" ++ [hex (c / 16)%N; hex (c mod 16)%N]
  else [c].
Definition quote (t : text) : text := [34%N] ++ flat_map escape t ++ [34%N].
(** serde_json ser.rs [PrettyFormatter], with two spaces. *)
Definition indent (k : nat) : text := repeat 32%N (2 * k).
Fixpoint pretty (k : nat) (v : json) : text :=
  match v with
  | JNull => lit "null"
  | JBool true => lit "true"
  | JBool false => lit "false"
  | JNum n => decimal n
  | JStr t => quote t
  | JArr [] => lit "[]"
  | JArr (x :: r) =>
      lit "[" ++ [nl] ++ indent (S k) ++ pretty (S k) x ++
      flat_map (fun y => lit "," ++ [nl] ++ indent (S k) ++ pretty (S k) y) r ++
      [nl] ++ indent k ++ lit "]"
  | JObj [] => lit "{}"
  | JObj ((m, x) :: r) =>
      lit "{" ++ [nl] ++ indent (S k) ++ quote m ++ lit ": " ++ pretty (S k) x ++
      flat_map (fun p => lit "," ++ [nl] ++ indent (S k) ++ quote (fst p) ++ lit ": " ++ pretty (S k) (snd p)) r ++
      [nl] ++ indent k ++ lit "}"
  end.
(** output_format.rs:218-240 [JsonEmitter::emit]. *)
Definition print_json (ds : list jdiag) (es : list (text * text)) : text := pretty 0 (output_json ds es).
(** commands/check.rs:66-79 and 151-161: what [--output-format json] prints.  [no_files]: no R file is
    found. *)
Definition json_stdout (no_files : bool) (ds : list jdiag) (es : list (text * text)) : text :=
  if no_files then lit "Warning: No R files found under the given path(s)." ++ [nl] else print_json ds es.
