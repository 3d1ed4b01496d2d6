(** Reading JSON (RFC 8259).  A parser written after the grammar of the standard; numbers are read only
    when they are natural numbers. *)
From Verif Require Import Model.Text Model.Base Model.Json.

(** Section 2. *)
Definition white (c : char) : bool := (c =? 32)%N || (c =? 9)%N || (c =? 10)%N || (c =? 13)%N.
Fixpoint skip_white (t : text) : text :=
  match t with c :: r => if white c then skip_white r else t | [] => [] end.

(** Section 7. *)
Definition hex_value (c : char) : option N :=
  if ((48 <=? c) && (c <=? 57))%N%bool then Some (c - 48)%N
  else if ((97 <=? c) && (c <=? 102))%N%bool then Some (c - 87)%N
  else if ((65 <=? c) && (c <=? 70))%N%bool then Some (c - 55)%N
  else None.
Definition four (a b c d : char) : option N :=
  match hex_value a, hex_value b, hex_value c, hex_value d with
  | Some x, Some y, Some z, Some w => Some (((x * 16 + y) * 16 + z) * 16 + w)%N
  | _, _, _, _ => None
  end.
Definition simple_escape (c : char) : option char :=
  if (c =? 34)%N then Some 34%N else if (c =? 92)%N then Some 92%N else if (c =? 47)%N then Some 47%N
  else if (c =? 98)%N then Some 8%N else if (c =? 102)%N then Some 12%N else if (c =? 110)%N then Some 10%N
  else if (c =? 114)%N then Some 13%N else if (c =? 116)%N then Some 9%N else None.
Definition push (c : char) (o : option (text * text)) : option (text * text) :=
  match o with Some (s, r) => Some (c :: s, r) | None => None end.
(** The rest of a string, after its opening quote: its characters, and what follows it. *)
Fixpoint string_rest (t : text) : option (text * text) :=
  match t with
  | [] => None
  | c :: r =>
      if (c =? 34)%N then Some ([], r)
      else if (c =? 92)%N then
        match r with
        | e :: r1 =>
            if (e =? 117)%N then
              match r1 with
              | x1 :: x2 :: x3 :: x4 :: r2 =>
                  match four x1 x2 x3 x4 with
                  | None => None
                  | Some n =>
                      if ((55296 <=? n) && (n <=? 56319))%N%bool then
                        match r2 with
                        | b :: u :: y1 :: y2 :: y3 :: y4 :: r3 =>
                            match four y1 y2 y3 y4 with
                            | Some m =>
                                if ((b =? 92) && (u =? 117) && (56320 <=? m) && (m <=? 57343))%N%bool then
                                  push (65536 + (n - 55296) * 1024 + (m - 56320))%N (string_rest r3)
                                else None
                            | None => None
                            end
                        | _ => None
                        end
                      else if ((56320 <=? n) && (n <=? 57343))%N%bool then None
                      else push n (string_rest r2)
                  end
              | _ => None
              end
            else match simple_escape e with Some x => push x (string_rest r1) | None => None end
        | [] => None
        end
      else if (c <? 32)%N then None
      else push c (string_rest r)
  end.

(** Section 6, without signs, fractions and exponents. *)
Definition is_digit (c : char) : bool := ((48 <=? c) && (c <=? 57))%N%bool.
Fixpoint digits (t : text) : text * text :=
  match t with
  | c :: r => if is_digit c then let '(d, s) := digits r in (c :: d, s) else ([], t)
  | [] => ([], [])
  end.
Definition number (t : text) : option (json * text) :=
  match digits t with
  | ([], _) => None
  | (c :: d, r) =>
      if ((c =? 48)%N && negb (match d with [] => true | _ => false end))%bool then None
      else if match r with x :: _ => (x =? 46)%N || (x =? 101)%N || (x =? 69)%N | [] => false end then None
      else Some (JNum (N.to_nat (fold_left (fun v x => 10 * v + (x - 48))%N (c :: d) 0%N)), r)
  end.

(** Sections 3 to 5: a value, the elements of an array up to its closing bracket, the members of an
    object up to its closing brace; each with what follows it. *)
Fixpoint value (fuel : nat) (t : text) : option (json * text) :=
  match fuel with
  | 0 => None
  | S n =>
      match skip_white t with
      | [] => None
      | c :: r =>
          if (c =? 34)%N then match string_rest r with Some (s, r') => Some (JStr s, r') | None => None end
          else if (c =? 91)%N then
            match skip_white r with
            | d :: r' => if (d =? 93)%N then Some (JArr [], r')
                         else match elements n r with Some (l, s) => Some (JArr l, s) | None => None end
            | [] => None
            end
          else if (c =? 123)%N then
            match skip_white r with
            | d :: r' => if (d =? 125)%N then Some (JObj [], r')
                         else match members n r with Some (l, s) => Some (JObj l, s) | None => None end
            | [] => None
            end
          else match strip_prefix (lit "null") (c :: r) with
               | Some r' => Some (JNull, r')
               | None =>
                   match strip_prefix (lit "true") (c :: r) with
                   | Some r' => Some (JBool true, r')
                   | None =>
                       match strip_prefix (lit "false") (c :: r) with
                       | Some r' => Some (JBool false, r')
                       | None => number (c :: r)
                       end
                   end
               end
      end
  end
with elements (fuel : nat) (t : text) : option (list json * text) :=
  match fuel with
  | 0 => None
  | S n =>
      match value n t with
      | None => None
      | Some (v, r) =>
          match skip_white r with
          | c :: r' =>
              if (c =? 93)%N then Some ([v], r')
              else if (c =? 44)%N then match elements n r' with Some (l, s) => Some (v :: l, s) | None => None end
              else None
          | [] => None
          end
      end
  end
with members (fuel : nat) (t : text) : option (list (text * json) * text) :=
  match fuel with
  | 0 => None
  | S n =>
      match skip_white t with
      | q :: r0 =>
          if (q =? 34)%N then
            match string_rest r0 with
            | None => None
            | Some (m, r1) =>
                match skip_white r1 with
                | k :: r2 =>
                    if (k =? 58)%N then
                      match value n r2 with
                      | None => None
                      | Some (v, r) =>
                          match skip_white r with
                          | c :: r' =>
                              if (c =? 125)%N then Some ([(m, v)], r')
                              else if (c =? 44)%N then match members n r' with Some (l, s) => Some ((m, v) :: l, s) | None => None end
                              else None
                          | [] => None
                          end
                      end
                    else None
                | [] => None
                end
            end
          else None
      | [] => None
      end
  end.
(** The text is one value, with white space around it.  Of two nested steps at least one reads a
    character, so this fuel is never used up by a text that is JSON. *)
Definition read_json (t : text) : option json :=
  match value (2 * length t + 2) t with
  | Some (v, r) => match skip_white r with [] => Some v | _ => None end
  | None => None
  end.

(** The value at a path of member names. *)
Fixpoint at_path (p : list text) (v : json) : option json :=
  match p with
  | [] => Some v
  | m :: p' => match v with
               | JObj l => match find (fun x => teqb (fst x) m) l with Some (_, w) => at_path p' w | None => None end
               | _ => None
               end
  end.
Definition text_or_null (o : option text) : json := match o with Some s => JStr s | None => JNull end.
(** The value [v] shows the diagnostic [d]. *)
Definition shows (v : json) (d : jdiag) : Prop :=
  at_path [lit "message"; lit "name"] v = Some (JStr (j_name d)) /\
  at_path [lit "message"; lit "body"] v = Some (JStr (j_body d)) /\
  at_path [lit "message"; lit "suggestion"] v = Some (text_or_null (j_suggestion d)) /\
  at_path [lit "filename"] v = Some (JStr (j_filename d)) /\
  at_path [lit "range"] v = Some (JArr [JNum (j_start d); JNum (j_end d)]) /\
  match j_location d with
  | Some (row, column) => at_path [lit "location"; lit "row"] v = Some (JNum row) /\
                          at_path [lit "location"; lit "column"] v = Some (JNum column)
  | None => at_path [lit "location"] v = Some JNull
  end /\
  at_path [lit "fix"; lit "content"] v = Some (JStr (j_content d)) /\
  at_path [lit "fix"; lit "start"] v = Some (JNum (j_fix_start d)) /\
  at_path [lit "fix"; lit "end"] v = Some (JNum (j_fix_end d)) /\
  at_path [lit "fix"; lit "to_skip"] v = Some (JBool (j_skip d)).
Definition shows_error (v : json) (e : text * text) : Prop :=
  at_path [lit "file"] v = Some (JStr (fst e)) /\ at_path [lit "error"] v = Some (JStr (snd e)).
