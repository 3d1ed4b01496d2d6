(** When the editor has nothing to offer because a comment is there already. *)
From Verif Require Import Model.Text Model.Base Model.Rules Model.Fix Model.Driver Model.SuppressEdit Model.Rmd Model.Lsp Model.Actions Spec.DirectiveSpec.

(** [prev] is the line just above the byte offset [off], which starts a line. *)
Definition line_above (t : text) (off : nat) (prev : text) : Prop :=
  exists a b, t = a ++ prev ++ [nl] ++ b /\ blen (a ++ prev ++ [nl]) = off /\ ~ In nl prev /\
    (a = [] \/ exists x, a = x ++ [nl]).
(** [n] is one of the names in a list with commas, blanks around it not counted. *)
Definition named (names n : text) : Prop :=
  exists a x y b, names = a ++ (x ++ n ++ y) ++ b /\ blank x /\ blank y /\
    (a = [] \/ exists a', a = a' ++ lit ",") /\ (b = [] \/ exists b', b = lit "," ++ b').
(** A line of the form [# jarl-ignore a, b: anything] with the rule among the names. *)
Definition names_rule (r : rule) (line : text) : Prop :=
  exists w names rest, blank w /\ line = w ++ lit "# jarl-ignore" ++ names ++ lit ":" ++ rest /\
    ~ In 58%N names /\ named names (rule_name r).
(** The report at byte [start] is in this chunk, and in none before. *)
Definition chunk_of (content : text) (start : nat) (c : raw) : Prop :=
  exists l l', extract_r_chunks content = l ++ c :: l' /\ r_start c <= start <= r_start c + blen (r_code c) /\
    forall c', In c' l -> ~ r_start c' <= start <= r_start c' + blen (r_code c').
Definition found_in (code needle : text) : Prop := exists a b, code = a ++ needle ++ b.

(** The actions offered for the report [d]: its fix, a comment for its rule, and in documents a
    comment for its chunk. *)
Inductive offered (content : text) (enc : encoding) (rmd : bool) (chain : diag -> option (list anc))
  (chunk_chain : raw -> nat -> option (list anc)) (d : diag) : action -> Prop :=
| off_fix te : code_action d content enc = ROk (Some te) -> offered content enc rmd chain chunk_chain d (AFix te)
| off_rule te : rmd = false -> ignore_rule_action content (d_rule d) (chain d) (d_start d) = ROk (Some te) ->
    offered content enc rmd chain chunk_chain d (AIgnore te)
| off_rule_rmd te : rmd = true ->
    ignore_rule_action_rmd content (d_rule d) chunk_chain (d_start d) (extract_r_chunks content) = ROk (Some te) ->
    offered content enc rmd chain chunk_chain d (AIgnore te)
| off_chunk te : rmd = true -> ignore_chunk_action content (d_rule d) (d_start d) = ROk (Some te) ->
    offered content enc rmd chain chunk_chain d (AChunk te).
