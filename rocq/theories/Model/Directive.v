(** Suppression directives in comments: crates/jarl-core/src/directive.rs. *)
From Verif Require Import Model.Text Model.Base Model.Rules.

(** [LintDirective], directive.rs:9-25, as a kind and a rule. *)
Inductive kind := KIgnore | KChunk | KFile | KStart | KEnd.
Record directive := Dir { d_kind : kind; d_rule : rule }.

(** [DirectiveParseResult], directive.rs:35-45 *)
Inductive parsed :=
| PValid (d : directive)
| PBlanket
| PMissing
| PMisnamed.

(** [RuleParseResult], directive.rs:264-273 *)
Inductive rule_parsed := RPValid (r : rule) | RPMissing | RPMisnamed | RPInvalid.

(** [parse_rule_with_explanation], directive.rs:281-316 *)
Definition parse_rule_with_explanation (t : text) : rule_parsed :=
  match find_char 58%N t with
  | None =>
      let name := trim t in
      match name with
      | [] => RPInvalid
      | _ => match from_name name with Some _ => RPMissing | None => RPMisnamed end
      end
  | Some (before, after) =>
      let name := trim before in
      match name with
      | [] => RPInvalid
      | _ =>
          match from_name name with
          | None => RPMisnamed
          | Some r => match trim after with [] => RPMissing | _ => RPValid r end
          end
      end
  end.

(** [parse_rule_only], directive.rs:323-331 *)
Definition parse_rule_only (t : text) : option rule :=
  match trim t with [] => None | name => from_name name end.

(** The [match parse_rule_with_explanation(..)] of directive.rs:168-175 (and 183-190,
    224-235, 253-261), for the directive kind [k]. *)
Definition lift_rule (k : kind) (p : rule_parsed) : option parsed :=
  match p with
  | RPValid r => Some (PValid (Dir k r))
  | RPMissing => Some PMissing
  | RPMisnamed => Some PMisnamed
  | RPInvalid => None
  end.

(** The prefix of the comment, directive.rs:146-154: rest and [is_quarto_pipe]. *)
Definition comment_prefix (t : text) : option (text * bool) :=
  match strip_prefix (lit "#| ") t with
  | Some r => Some (r, true)
  | None =>
      match strip_prefix (lit "# ") t with
      | Some r => Some (r, false)
      | None =>
          match strip_prefix (lit "#") t with
          | Some r => Some (r, false)
          | None => None
          end
      end
  end.

(** [parse_comment_directive], directive.rs:141-261 *)
Definition parse_comment_directive (t : text) : option parsed :=
  match comment_prefix (trim_start t) with
  | None => None
  | Some (t, pipe) =>
      match strip_prefix (lit "jarl-ignore") t with
      | None => None
      | Some rest =>
          match strip_prefix (lit "-file ") rest with
          | Some a => if pipe then None else lift_rule KFile (parse_rule_with_explanation a)
          | None =>
          match strip_prefix (lit "-start ") rest with
          | Some a => if pipe then None else lift_rule KStart (parse_rule_with_explanation a)
          | None =>
          match strip_prefix (lit "-end ") rest with
          | Some a =>
              if pipe then None
              else
                let rule_part := match find_char 58%N a with Some (b, _) => b | None => a end in
                match parse_rule_only rule_part with
                | Some r => Some (PValid (Dir KEnd r))
                | None => match trim rule_part with [] => None | _ => Some PMisnamed end
                end
          | None =>
          match strip_prefix (lit " ") rest with
          | Some a =>
              if pipe then None
              else if starts_with (lit ":") a then Some PBlanket
              else lift_rule KIgnore (parse_rule_with_explanation a)
          | None =>
          if match rest with [] => true | _ => starts_with (lit ":") rest end then
            if pipe then None else Some PBlanket
          else if teqb rest (lit "-chunk") || starts_with (lit "-chunk:") rest then Some PBlanket
          else
          match strip_prefix (lit "-chunk ") rest with
          | Some a =>
              if starts_with (lit ":") a then Some PBlanket
              else lift_rule KChunk (parse_rule_with_explanation a)
          | None => None
          end
          end
          end
          end
          end
      end
  end.

(** [is_quarto_chunk_array_header], directive.rs:61-63 *)
Definition is_array_header (t : text) : bool := teqb (trim t) (lit "#| jarl-ignore-chunk:").

(** [parse_quarto_chunk_array_item], directive.rs:76-101 *)
Definition parse_array_item (t : text) : option parsed :=
  match strip_prefix (lit "#|") (trim t) with
  | None => None
  | Some rest =>
      match strip_prefix (lit "-") (trim_start rest) with
      | None => None
      | Some rest =>
          if match rest with [] => true | c :: _ => is_ws c end then
            match trim_start rest with
            | [] => None
            | rest => lift_rule KChunk (parse_rule_with_explanation rest)
            end
          else None
      end
  end.
