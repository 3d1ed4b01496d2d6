(** How R reads a text: from characters to the tokens of Model/RExpr.v, and from
    there, with the parser of Spec/RGrammar.v, to a program.

    Follows R's own lexer (src/main/gram.y, [token] and [yylex]).  The text is
    cut into pieces that are put back together to the text (nothing is lost);
    spaces and comments are then dropped, []]] is told from two []] by what is
    open, and a line break is kept where it ends a statement or stands before
    a binary operator.

    Not covered, and refused: semicolons, raw strings, [\(x)], [?], [**],
    a line break before [=] inside parentheses.  Every character above 127 counts
    as a letter. *)
From Verif Require Export Spec.RGrammar.

(** ** Pieces *)
Inductive raw := RWord | RStr | ROp | RNl | RComment | RSpace.
Definition piece := (raw * text)%type.

Definition digit (c : char) : bool := ((48 <=? c) && (c <=? 57))%N.
Definition letter (c : char) : bool :=
  (((65 <=? c) && (c <=? 90)) || ((97 <=? c) && (c <=? 122)) || (128 <=? c))%N.
Definition word_start (c : char) : bool := letter c || digit c || ceqb c 46%N.
Definition word_char (c : char) : bool := word_start c || ceqb c 95%N.
Definition space_char (c : char) : bool := ceqb c 32%N || ceqb c 9%N || ceqb c 13%N || ceqb c 12%N.
Definition quote (c : char) : bool := ceqb c 34%N || ceqb c 39%N.
Definition op_char (c : char) : bool := existsb (ceqb c) (lit "(){}[],<>-=~|&!+*/^:$@").

(** A word that is a number. *)
Definition number (w : text) : bool :=
  match w with
  | c :: r => digit c || (ceqb c 46%N && match r with d :: _ => digit d | [] => false end)
  | [] => false
  end.
(** A number that ends with the [e] of an exponent, after which a sign belongs
    to the number. *)
Definition exponent (w : text) : bool :=
  number w && negb (starts_with (lit "0x") w || starts_with (lit "0X") w) &&
  match rev w with c :: _ => ceqb c 101%N || ceqb c 69%N | [] => false end.

(** The operators of more than one character, and their beginnings. *)
Definition long_ops : list text :=
  [lit "<-"; lit "<<"; lit "<<-"; lit "<="; lit "->"; lit "->>"; lit ">="; lit "=="; lit "!=";
   lit "||"; lit "&&"; lit "|>"; lit "::"; lit ":::"; lit ":="; lit "[["].
Definition is_long (w : text) : bool := existsb (teqb w) long_ops.

(** The piece being read. *)
Inductive lstate :=
| LIdle
| LSpace (w : text)
| LWord (w : text)
| LStr (w : text) (q : char) (escaped : bool)
| LTick (w : text)
| LPercent (w : text)
| LOp (w : text)
| LComment (w : text)
| LBad.

(** The first character of a piece. *)
Definition start_piece (c : char) : list piece * lstate :=
  if ceqb c 10%N then ([(RNl, [c])], LIdle)
  else if space_char c then ([], LSpace [c])
  else if ceqb c 35%N then ([], LComment [c])
  else if quote c then ([], LStr [c] c false)
  else if ceqb c 96%N then ([], LTick [c])
  else if ceqb c 37%N then ([], LPercent [c])
  else if word_start c then ([], LWord [c])
  else if op_char c then ([], LOp [c])
  else ([], LBad).
(** The end of a piece, and the first character of the next one. *)
Definition next_piece (p : piece) (c : char) : list piece * lstate :=
  let '(out, st) := start_piece c in (p :: out, st).

Definition lex_step (st : lstate) (c : char) : list piece * lstate :=
  match st with
  | LIdle => start_piece c
  | LSpace w => if space_char c then ([], LSpace (w ++ [c])) else next_piece (RSpace, w) c
  | LWord w =>
      if word_char c || (exponent w && (ceqb c 43%N || ceqb c 45%N)) then ([], LWord (w ++ [c]))
      else if quote c && (teqb w (lit "r") || teqb w (lit "R")) then ([], LBad)
      else next_piece (RWord, w) c
  | LStr w q esc =>
      if esc then ([], LStr (w ++ [c]) q false)
      else if ceqb c q then ([(RStr, w ++ [c])], LIdle)
      else ([], LStr (w ++ [c]) q (ceqb c 92%N))
  | LTick w => if ceqb c 96%N then ([(RWord, w ++ [c])], LIdle) else ([], LTick (w ++ [c]))
  | LPercent w =>
      if ceqb c 37%N then ([(ROp, w ++ [c])], LIdle)
      else if ceqb c 10%N then ([], LBad) else ([], LPercent (w ++ [c]))
  | LOp w => if is_long (w ++ [c]) then ([], LOp (w ++ [c])) else next_piece (ROp, w) c
  | LComment w => if ceqb c 10%N then next_piece (RComment, w) c else ([], LComment (w ++ [c]))
  | LBad => ([], LBad)
  end.
Fixpoint lex_run (st : lstate) (t : text) : list piece * lstate :=
  match t with
  | [] => ([], st)
  | c :: r => let '(a, st1) := lex_step st c in let '(b, st2) := lex_run st1 r in (a ++ b, st2)
  end.
(** The end of the text. *)
Definition lex_end (st : lstate) : option (list piece) :=
  match st with
  | LIdle => Some []
  | LSpace w => Some [(RSpace, w)]
  | LWord w => Some [(RWord, w)]
  | LOp w => Some [(ROp, w)]
  | LComment w => Some [(RComment, w)]
  | LStr _ _ _ | LTick _ | LPercent _ | LBad => None
  end.
Definition pieces (t : text) : option (list piece) :=
  let '(ps, st) := lex_run LIdle t in option_map (app ps) (lex_end st).

(** ** Where the pieces are: from byte [a] to byte [b] *)
Definition span := (nat * nat)%type.
Definition placed := (raw * text * span)%type.
Fixpoint place_pieces (pos : nat) (ps : list piece) : list placed :=
  match ps with
  | [] => []
  | (k, w) :: r => (k, w, (pos, pos + blen w)) :: place_pieces (pos + blen w) r
  end.
Definition visible (p : placed) : bool :=
  match p with (RSpace, _, _) | (RComment, _, _) => false | _ => true end.

(** ** Tokens *)
Definition binary (w : text) : option binop :=
  let is s := teqb w s in
  if is (lit "=") then Some BEq
  else if is (lit "<-") || is (lit "<<-") || is (lit ":=") then Some (BAssign w)
  else if is (lit "->") || is (lit "->>") then Some (BRAssign w)
  else if is (lit "~") then Some BTilde
  else if is (lit "|") then Some BOr else if is (lit "||") then Some BOr2
  else if is (lit "&") then Some BAnd else if is (lit "&&") then Some BAnd2
  else if is (lit "<") then Some (BCmp CLt) else if is (lit "<=") then Some (BCmp CLe)
  else if is (lit ">") then Some (BCmp CGt) else if is (lit ">=") then Some (BCmp CGe)
  else if is (lit "==") then Some (BCmp CEq) else if is (lit "!=") then Some (BCmp CNe)
  else if is (lit "+") then Some BAdd else if is (lit "-") then Some BSub
  else if is (lit "*") then Some BMul else if is (lit "/") then Some BDiv
  else if is (lit "|>") then Some BPipe
  else if is (lit ":") then Some BColon
  else if is (lit "^") then Some BPow
  else match w with c :: _ => if ceqb c 37%N then Some (BSpecial w) else None | [] => None end.

Definition word_tok (w : text) : tok :=
  let is s := teqb w s in
  if is (lit "if") then TIf else if is (lit "else") then TElse
  else if is (lit "function") then TFun else if is (lit "for") then TFor
  else if is (lit "in") then TIn else if is (lit "while") then TWhile
  else if is (lit "repeat") then TRepeat
  else if is (lit "TRUE") then TAtom ATrue else if is (lit "FALSE") then TAtom AFalse
  else if is (lit "NULL") then TAtom ANull
  else if is (lit "NA") || is (lit "NA_integer_") || is (lit "NA_real_")
       || is (lit "NA_character_") || is (lit "NA_complex_") then TAtom (ANa w)
  else if is (lit "Inf") || is (lit "NaN") || is (lit "next") || is (lit "break")
       || is (lit "return") || is (lit "...") then TAtom (AOther w)
  else if number w then TAtom (ANum w)
  else TAtom (AId w).

(** A name, neither a number nor a reserved word. *)
Definition is_name (w : text) : bool := match word_tok w with TAtom (AId _) => true | _ => false end.

(** What is open. *)
Inductive opened := OParen (header : bool) | OBracket (double : bool) | OBrace.
(** Line breaks are ignored inside parentheses and brackets. *)
Definition ignoring (cx : list opened) : bool :=
  match cx with (OParen _ | OBracket _) :: _ => true | _ => false end.

Fixpoint after_breaks (ps : list placed) : option (raw * text) :=
  match ps with
  | (RNl, _, _) :: r => after_breaks r
  | (k, w, _) :: _ => Some (k, w)
  | [] => None
  end.
(** A line break after a complete operand: is it kept?  ([None]: not covered.) *)
Definition kept (cx : list opened) (next : option (raw * text)) : option bool :=
  if ignoring cx then
    match next with
    | Some (ROp, w) =>
        match binary w with Some BEq => None | Some _ => Some true | None => Some false end
    | _ => Some false
    end
  else
    match next with
    | None => Some false
    | Some (ROp, w) => Some (negb (teqb w (lit "}")))
    | Some (RWord, w) => Some (negb (teqb w (lit "else")) || match cx with [] => true | _ => false end)
    | Some _ => Some true
    end.

(** A token and where it is. *)
Definition ptok := (tok * span)%type.
Definition cons_tok (k : tok) (s : span) (r : option (list ptok)) : option (list ptok) :=
  option_map (cons (k, s)) r.

(** [operand]: the last token ends an operand; [header]: the last token is [if],
    [for], [while] or [function], whose parenthesis does not end an operand. *)
Fixpoint arrange (cx : list opened) (operand header : bool) (ps : list placed) : option (list ptok) :=
  match ps with
  | [] => match cx with [] => Some [] | _ => None end
  | (RNl, _, s) :: r =>
      if operand then
        match kept cx (after_breaks r) with
        | None => None
        | Some true => cons_tok TNl s (arrange cx false header r)
        | Some false => arrange cx operand header r
        end
      else arrange cx operand header r
  | (RSpace, _, _) :: r | (RComment, _, _) :: r => arrange cx operand header r
  | (RStr, w, s) :: r => cons_tok (TAtom (AStr w)) s (arrange cx true false r)
  | (RWord, w, s) :: r =>
      let plain :=
        let k := word_tok w in
        match k with
        | TIf | TFor | TWhile | TFun => cons_tok k s (arrange cx false true r)
        | TAtom _ => cons_tok k s (arrange cx true false r)
        | _ => cons_tok k s (arrange cx false false r)
        end in
      match r with
      | (ROp, o, _) :: (RWord, n, s2) :: r' =>
          if is_name w && teqb o (lit "::") then
            cons_tok (TAtom (ANs w false n)) (fst s, snd s2) (arrange cx true false r')
          else if is_name w && teqb o (lit ":::") then
            cons_tok (TAtom (ANs w true n)) (fst s, snd s2) (arrange cx true false r')
          else plain
      | _ => plain
      end
  | (ROp, w, s) :: r =>
      if teqb w (lit "(") then cons_tok TLp s (arrange (OParen header :: cx) false false r)
      else if teqb w (lit ")") then
        match cx with
        | OParen h :: cx' => cons_tok TRp s (arrange cx' (negb h) false r)
        | _ => None
        end
      else if teqb w (lit "[") then cons_tok (TLb false) s (arrange (OBracket false :: cx) false false r)
      else if teqb w (lit "[[") then cons_tok (TLb true) s (arrange (OBracket true :: cx) false false r)
      else if teqb w (lit "]") then
        match cx with
        | OBracket false :: cx' => cons_tok (TRb false) s (arrange cx' true false r)
        | OBracket true :: cx' =>
            match r with
            | (ROp, w2, s2) :: r' =>
                if teqb w2 (lit "]") && (snd s =? fst s2) then
                  cons_tok (TRb true) (fst s, snd s2) (arrange cx' true false r')
                else None
            | _ => None
            end
        | _ => None
        end
      else if teqb w (lit "{") then cons_tok TLc s (arrange (OBrace :: cx) false false r)
      else if teqb w (lit "}") then
        match cx with OBrace :: cx' => cons_tok TRc s (arrange cx' true false r) | _ => None end
      else if teqb w (lit ",") then cons_tok TComma s (arrange cx false false r)
      else if teqb w (lit "!") then cons_tok TBang s (arrange cx false false r)
      else if teqb w (lit "$") || teqb w (lit "@") then
        match r with
        | (RWord, n, s2) :: r' =>
            cons_tok (TExtract w n) (fst s, snd s2) (arrange cx true false r')
        | _ => None
        end
      else
        match binary w with
        | Some o => cons_tok (TOp o) s (arrange cx false false r)
        | None => None
        end
  end.

Definition tokens (t : text) : option (list ptok) :=
  match pieces t with
  | Some ps => arrange [] false false (filter visible (place_pieces 0 ps))
  | None => None
  end.

(** R reads the text as the program. *)
Definition reads_text (t : text) (p : prog) : Prop :=
  exists pts, tokens t = Some pts /\ reads (map fst pts) p.
(** The parser with enough steps (Proofs/RFuel.v: it never runs out). *)
Definition parse (ts : list tok) : option prog :=
  match pprog (2 * length ts + 2) ts with POk p [] => Some p | _ => None end.

(** ** Writing tokens *)
Definition atom_text (a : atom) : text :=
  match a with
  | AId t | ANum t | AStr t | ANa t | AOther t => t
  | ATrue => lit "TRUE" | AFalse => lit "FALSE" | ANull => lit "NULL"
  | ANs p internal n => p ++ (if internal then lit ":::" else lit "::") ++ n
  end.
Definition op_text (o : binop) : text :=
  match o with
  | BEq => lit "=" | BAssign t | BRAssign t | BSpecial t => t
  | BTilde => lit "~" | BOr => lit "|" | BOr2 => lit "||" | BAnd => lit "&" | BAnd2 => lit "&&"
  | BCmp CLt => lit "<" | BCmp CLe => lit "<=" | BCmp CGt => lit ">" | BCmp CGe => lit ">="
  | BCmp CEq => lit "==" | BCmp CNe => lit "!="
  | BAdd => lit "+" | BSub => lit "-" | BMul => lit "*" | BDiv => lit "/"
  | BPipe => lit "|>" | BColon => lit ":" | BPow => lit "^"
  end.
Definition tok_text (k : tok) : text :=
  match k with
  | TAtom a => atom_text a
  | TBang => lit "!" | TOp o => op_text o
  | TLp => lit "(" | TRp => lit ")"
  | TLb false => lit "[" | TLb true => lit "[[" | TRb false => lit "]" | TRb true => lit "]]"
  | TLc => lit "{" | TRc => lit "}" | TComma => lit "," | TNl => lit "
"
  | TExtract o n => o ++ n
  | TIf => lit "if" | TElse => lit "else" | TFun => lit "function" | TFor => lit "for"
  | TIn => lit "in" | TWhile => lit "while" | TRepeat => lit "repeat"
  end.

(** The usual spacing: spaces around binary operators, [else], [in] and after
    commas and [if (c)]; none around [:] and [^], after a prefix operator and inside
    parentheses. *)
Definition ends_operand (k : tok) : bool :=
  match k with TAtom _ | TRp | TRb _ | TRc | TExtract _ _ => true | _ => false end.
Definition spaced (o : binop) : bool := match o with BColon | BPow => false | _ => true end.
(** Is there a space between [a] and [b]?  [after_binary]: [a] is a binary operator. *)
Definition gap (after_binary : bool) (a b : tok) : bool :=
  match b with
  | TRp | TRb _ | TComma | TNl | TLb _ | TExtract _ _ => false
  | TElse | TIn | TRc => true
  | _ =>
      match a with
      | TLp | TLb _ | TBang | TNl => false
      | TOp o => after_binary && spaced o
      | TFun => match b with TLp => false | _ => true end
      | _ =>
          match b with
          | TOp o => if ends_operand a then spaced o else true
          | TLp => negb (ends_operand a)
          | _ => true
          end
      end
  end.
Fixpoint show_from (after_binary : bool) (a : tok) (ts : list tok) : text :=
  match ts with
  | [] => []
  | b :: r =>
      (if gap after_binary a b then [32%N] else []) ++ tok_text b
        ++ show_from (match b with TOp _ => ends_operand a | _ => false end) b r
  end.
Definition show (ts : list tok) : text :=
  match ts with [] => [] | a :: r => tok_text a ++ show_from false a r end.
