(** Reading what is printed. *)
From Verif Require Import Model.Text Model.Base Model.Rules Model.Output.

(** What a diagnostic says: its message and, if there is one, the suggestion. *)
Definition says (d : printed) : text :=
  p_body d ++ match p_suggestion d with Some s => lit " " ++ s | None => [] end.

(** ** GitHub *)
(** How GitHub's runner reads a line of output as a command (actions/runner, ActionCommand.cs,
    TryParseV2): the line starts with two colons; up to the next two colons there is the name of the
    command, a space, and properties separated by commas, each [key=value]; the rest is the data.
    In values and data, percent signs followed by a code stand for special characters. *)
Fixpoint cut (sep t : text) : option (text * text) :=          (* at the first [sep] *)
  if starts_with sep t then Some ([], skipn (length sep) t)
  else match t with
       | [] => None
       | c :: r => match cut sep r with Some (a, b) => Some (c :: a, b) | None => None end
       end.
Definition data_codes : list (text * char) := [(lit "%0D", 13%N); (lit "%0A", 10%N); (lit "%25", 37%N)].
Definition property_codes : list (text * char) := [(lit "%0D", 13%N); (lit "%0A", 10%N); (lit "%3A", 58%N); (lit "%2C", 44%N); (lit "%25", 37%N)].
(** [skip]: characters of a code still to be passed over. *)
Fixpoint decode (codes : list (text * char)) (skip : nat) (t : text) : text :=
  match t with
  | [] => []
  | c :: r =>
      match skip with
      | S k => decode codes k r
      | 0 => match find (fun p => starts_with (fst p) t) codes with
             | Some (s, x) => x :: decode codes (length s - 1) r
             | None => c :: decode codes 0 r
             end
      end
  end.
Record command := mk_command { cm_name : text; cm_properties : list (text * text); cm_data : text }.
Definition pair_of (s : text) : list (text * text) :=
  match cut (lit "=") s with Some (k, v) => [(k, decode property_codes 0 v)] | None => [] end.
Definition github_reads (line : text) : option command :=
  match strip_prefix (lit "::") line with
  | None => None
  | Some r =>
      match cut (lit "::") r with
      | None => None
      | Some (info, data) =>
          let '(name, props) := match cut (lit " ") info with Some (n, p) => (n, p) | None => (info, []) end in
          Some (mk_command name (flat_map pair_of (split_on 44%N (trim props))) (decode data_codes 0 data))
      end
  end.
(** The value of a property: the last one given wins. *)
Definition property (c : command) (k : text) : option text :=
  match filter (fun p => teqb (fst p) k) (rev (cm_properties c)) with p :: _ => Some (snd p) | [] => None end.

(** A text without any of the sequences that GitHub replaces. *)
Definition occurs (s t : text) : Prop := exists a b, t = a ++ s ++ b.
Definition no_codes (codes : list (text * char)) (t : text) : Prop := forall s, In s (map fst codes) -> ~ occurs s t.
Definition one_line (t : text) : Prop := ~ In nl t.
(** A diagnostic that can stand in a command: the name of the file without commas, double colons, codes
    and line breaks, the message without codes and line breaks. *)
Definition fit_for_github (d : printed) : Prop :=
  one_line (p_file d) /\ no_codes property_codes (p_file d) /\ ~ In 44%N (p_file d) /\ ~ occurs (lit "::") (p_file d) /\
  one_line (says d) /\ no_codes data_codes (says d) /\ exists r, p_rule d = rule_name r.
(** The annotation [c] is about the diagnostic [d]. *)
Definition annotates (c : command) (d : printed) : Prop :=
  cm_name c = lit "warning" /\ property c (lit "file") = Some (p_file d) /\
  property c (lit "line") = Some (decimal (p_row d)) /\ property c (lit "col") = Some (decimal (p_col d + 1)) /\
  property c (lit "title") = Some (lit "Jarl (" ++ p_rule d ++ lit ")") /\
  cm_data c = p_file d ++ lit ":" ++ decimal (p_row d) ++ lit ":" ++ decimal (p_col d + 1) ++ lit " [" ++ p_rule d ++ lit "] " ++ says d.

(** ** The concise format *)
(** The lines of an output. *)
Fixpoint output_lines (t : text) : list text :=
  match t with
  | [] => []
  | c :: r => if N.eqb c nl then [] :: output_lines r
              else match output_lines r with l :: ls => (c :: l) :: ls | [] => [[c]] end
  end.

(** The header of a section: two horizontal lines (U+2500), the title, at least two more lines. *)
Definition horizontal : char := 9472%N.
Definition header_of (title h : text) : Prop := exists k, 2 <= k /\
  h = [horizontal; horizontal] ++ lit " " ++ title ++ lit " " ++ repeat horizontal k.

(** ** A terminal *)
(** What a terminal with hyperlinks shows: each character with the address it links to.  Between ESC ] and
    ESC \ there is an operating system command; [8;params;address] starts a link, and ends it if the address
    is empty.  (ECMA-48 and the OSC 8 convention; no other escape sequence is interpreted.) *)
Inductive terminal := Shows (link : option text) | Escape (link : option text)
  | Command (link : option text) (so_far : text) | CommandEscape (link : option text) (so_far : text).
Definition after_command (link : option text) (c : text) : option text :=
  match cut (lit ";") c with
  | Some (n, r) =>
      if teqb n (lit "8") then
        match cut (lit ";") r with
        | Some (_, []) => None
        | Some (_, address) => Some address
        | None => link
        end
      else link
  | None => link
  end.
Fixpoint screen (st : terminal) (t : text) : list (char * option text) :=
  match t with
  | [] => []
  | c :: r =>
      match st with
      | Shows link => if N.eqb c 27 then screen (Escape link) r else (c, link) :: screen st r
      | Escape link => if N.eqb c 93 then screen (Command link []) r else screen (Shows link) r
      | Command link so_far => if N.eqb c 27 then screen (CommandEscape link so_far) r else screen (Command link (so_far ++ [c])) r
      | CommandEscape link so_far =>
          if N.eqb c 92 then screen (Shows (after_command link so_far)) r
          else screen (Command link (so_far ++ [27%N; c])) r
      end
  end.
Definition on_screen (t : text) : list (char * option text) := screen (Shows None) t.
Definition linked (address : option text) (t : text) : list (char * option text) := map (fun c => (c, address)) t.
Definition rule_page (rule : text) : text := lit "https://jarl.etiennebacher.com/rules/" ++ rule.
Definition no_escape (t : text) : Prop := ~ In 27%N t.
