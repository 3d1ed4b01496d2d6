(** The language server: crates/jarl-lsp/src/{document,lint,server,session}.rs.
    Simplifications: [u32] casts of line and character numbers are not modelled (documents shorter
    than 2^32 bytes); URIs are texts; the language id, logging and message transport are left out. *)
From Verif Require Import Model.Text Model.Base Model.Rules Model.Fix Model.Driver Model.SuppressEdit Model.Rmd.

(** document.rs:11-20 *)
Inductive encoding := UTF8 | UTF16 | UTF32.
(** [char::len_utf16] *)
Definition u16len (c : char) : nat := if (c <? 65536)%N then 1 else 2.
Fixpoint wlen (t : text) : nat := match t with [] => 0 | c :: r => u16len c + wlen r end.

(** [lsp_types::Position]: line and character. *)
Definition pos := (nat * nat)%type.

(** [compute_line_starts], document.rs:313-321 (a newline is one byte, and no other character has
    the byte 10 in its encoding). *)
Fixpoint line_starts_from (off : nat) (t : text) : list nat :=
  match t with
  | [] => []
  | c :: r => if N.eqb c nl then (off + 1) :: line_starts_from (off + 1) r
              else line_starts_from (off + u8len c) r
  end.
Definition compute_line_starts (t : text) : list nat := 0 :: line_starts_from 0 t.

(** [TextDocument], document.rs:83-93 *)
Record doc := Doc { dc_content : text; dc_version : Z; dc_starts : list nat }.
Definition new_doc (t : text) (version : Z) : doc := Doc t version (compute_line_starts t).

(** [line_start], [line_end] and [line_content]: document.rs:200-208 and 276-284 *)
Definition line_bounds (d : doc) (line : nat) : option (nat * nat) :=
  match nth_error (dc_starts d) line with
  | None => None
  | Some s =>
      Some (s, match nth_error (dc_starts d) (line + 1) with
               | Some n => n - 1
               | None => blen (dc_content d)
               end)
  end.

(** The loops of document.rs:222-231 and 241-249, from (units, bytes). *)
Fixpoint walk16 (character units bytes : nat) (t : text) : nat * nat :=
  match t with
  | [] => (units, bytes)
  | c :: r => if character <=? units then (units, bytes)
              else walk16 character (units + u16len c) (bytes + u8len c) r
  end.
Fixpoint walk32 (character count bytes : nat) (t : text) : nat :=
  match t with
  | [] => bytes
  | c :: r => if character <=? count then bytes else walk32 character (count + 1) (bytes + u8len c) r
  end.
(** [position_to_offset], document.rs:187-256 *)
Definition position_to_offset (d : doc) (p : pos) (enc : encoding) : res nat :=
  let '(line, character) := p in
  match line_bounds d line with
  | None => RErr
  | Some (s, e) =>
      match bslice s e (dc_content d) with
      | None => RPanic
      | Some l =>
          match enc with
          | UTF8 => if blen l <? character then RErr else ROk (s + character)
          | UTF16 => let '(units, bytes) := walk16 character 0 0 l in
                     if character <? units then RErr else ROk (s + bytes)
          | UTF32 => ROk (s + walk32 character 0 0 l)
          end
      end
  end.

(** The encoded length of a prefix. *)
Definition prefix_units (enc : encoding) (t : text) : nat :=
  match enc with UTF8 => blen t | UTF16 => wlen t | UTF32 => length t end.
(** [offset_to_position], document.rs:259-303.  The line found by the binary search in the
    ascending line starts is the last one starting at or before the offset. *)
Definition offset_to_position (d : doc) (off : nat) (enc : encoding) : res pos :=
  if blen (dc_content d) <? off then RErr
  else
    let line := length (filter (fun s => s <=? off) (dc_starts d)) - 1 in
    match line_bounds d line with
    | None => RPanic
    | Some (s, e) =>
        match bslice s e (dc_content d) with
        | None => RPanic
        | Some l =>
            match enc with
            | UTF8 => ROk (line, off - s)
            | _ => match bsplit (Nat.min (off - s) (blen l)) l with
                   | None => RPanic
                   | Some (prefix, _) => ROk (line, prefix_units enc prefix)
                   end
            end
        end
    end.

(** ** Synchronisation *)
(** [TextDocumentContentChangeEvent] *)
Record change := Change { cg_range : option (pos * pos); cg_text : text }.

(** The first loop of [apply_changes], document.rs:136-147 *)
Fixpoint resolve_changes (d : doc) (enc : encoding) (cs : list change) : res (list (nat * nat * text)) :=
  match cs with
  | [] => ROk []
  | c :: r =>
      match cg_range c with
      | None => RErr
      | Some (s, e) =>
          rbind (position_to_offset d s enc) (fun so =>
          rbind (position_to_offset d e enc) (fun eo =>
          rbind (resolve_changes d enc r) (fun l => ROk ((so, eo, cg_text c) :: l))))
      end
  end.
(** [sort_by(|a, b| b.0.cmp(&a.0))], stable: descending start offset. *)
Fixpoint insert_desc (x : nat * nat * text) (l : list (nat * nat * text)) : list (nat * nat * text) :=
  match l with
  | [] => [x]
  | y :: r => if fst (fst y) <=? fst (fst x) then x :: l else y :: insert_desc x r
  end.
Definition sort_desc (l : list (nat * nat * text)) : list (nat * nat * text) := fold_right insert_desc [] l.
(** The second loop, document.rs:153-180: the content after it (also when it stops early). *)
Inductive status := SOk | SErr | SPanic.
Fixpoint replace_all (l : list (nat * nat * text)) (t : text) : text * status :=
  match l with
  | [] => (t, SOk)
  | (s, e, new) :: r =>
      if (blen t <? s) || (blen t <? e) then (t, SErr)
      else if e <? s then (t, SErr)
      else match breplace s e new t with
           | None => (t, SPanic)
           | Some t' => replace_all r t'
           end
  end.
(** [apply_changes], document.rs:122-185: version and line starts are updated only at the end. *)
Definition apply_changes (d : doc) (cs : list change) (version : Z) (enc : encoding) : doc * status :=
  match resolve_changes d enc cs with
  | RErr => (d, SErr)
  | RPanic => (d, SPanic)
  | ROk l =>
      match replace_all (sort_desc l) (dc_content d) with
      | (t, SOk) => (Doc t version (compute_line_starts t), SOk)
      | (t, st) => (Doc t (dc_version d) (dc_starts d), st)
      end
  end.

(** ** Sessions, session.rs:141-200 and server.rs:279-327 *)
Definition uri := text.
Definition session := uri -> option doc.
Definition set_doc (s : session) (u : uri) (d : option doc) : session :=
  fun x => if teqb x u then d else s x.
Inductive event :=
| DidOpen (u : uri) (t : text) (version : Z)
| DidChange (u : uri) (cs : list change) (version : Z)
| DidClose (u : uri)
| DidSave (u : uri).
(** One notification: the new session, and whether it was accepted ([SPanic] ends the server). *)
Definition handle (enc : encoding) (s : session) (e : event) : session * status :=
  match e with
  | DidOpen u t v => (set_doc s u (Some (new_doc t v)), SOk)
  | DidChange u cs v =>
      match s u with
      | None => (s, SErr)
      | Some d => let '(d', st) := apply_changes d cs v enc in (set_doc s u (Some d'), st)
      end
  | DidClose u => match s u with None => (s, SErr) | Some _ => (set_doc s u None, SOk) end
  | DidSave u => (s, SOk)
  end.
Fixpoint run_events (enc : encoding) (s : session) (es : list event) : session :=
  match es with [] => s | e :: r => run_events enc (fst (handle enc s e)) r end.
Definition empty_session : session := fun _ => None.

(** [negotiate_position_encoding], session.rs:380-410; unknown kinds are [None]. *)
Definition encoding_eqb (a b : encoding) : bool :=
  match a, b with UTF8, UTF8 | UTF16, UTF16 | UTF32, UTF32 => true | _, _ => false end.
Definition offers (e : encoding) (l : list (option encoding)) : bool :=
  existsb (fun o => match o with Some x => encoding_eqb x e | None => false end) l.
Definition negotiate (offered : option (list (option encoding))) : encoding :=
  match offered with
  | Some l => if offers UTF8 l then UTF8 else if offers UTF16 l then UTF16 else UTF16
  | None => UTF16
  end.

(** ** Diagnostics *)
(** The loop of [byte_offset_to_lsp_position], lint.rs:280-318: [i] is the byte position of the
    rest [t]; [line_text] the content from the start of the current line on.  The slice
    [line_str[..min]] panics off a boundary. *)
Definition line_head (t : text) : text := match find_char nl t with Some (a, _) => a | None => t end.
Fixpoint scan_position (off i line line_start : nat) (line_text t : text) (enc : encoding) : res pos :=
  match t with
  | [] => ROk (line, match enc with UTF8 => off - line_start | _ => prefix_units enc line_text end)
  | c :: r =>
      if off <=? i then
        match enc with
        | UTF8 => ROk (line, off - line_start)
        | _ =>
            let l := line_head line_text in
            match bsplit (Nat.min (off - line_start) (blen l)) l with
            | None => RPanic
            | Some (prefix, _) => ROk (line, prefix_units enc prefix)
            end
        end
      else if N.eqb c nl then scan_position off (i + 1) (line + 1) (i + 1) r r enc
      else scan_position off (i + u8len c) line line_start line_text r enc
  end.
(** [byte_offset_to_lsp_position], lint.rs:265-332 *)
Definition byte_offset_to_lsp_position (off : nat) (content : text) (enc : encoding) : res pos :=
  if blen content <? off then RErr else scan_position off 0 0 0 content content enc.

(** The range of [convert_to_lsp_diagnostic], lint.rs:209-222 *)
Definition lsp_range (start stop : nat) (content : text) (enc : encoding) : res (pos * pos) :=
  rbind (byte_offset_to_lsp_position start content enc) (fun a =>
  rbind (byte_offset_to_lsp_position stop content enc) (fun b => ROk (a, b))).

(** A [TextEdit]. *)
Record tedit := TEdit { te_start : pos; te_end : pos; te_text : text }.
(** [diagnostic_to_code_action], server.rs:452-500: [ROk None] when no action is offered;
    errors of the conversion become no action ([.ok()?]). *)
Definition code_action (d : diag) (content : text) (enc : encoding) : res (option tedit) :=
  let f := d_fix d in
  if match f_content f with [] => f_start f =? f_end f | _ => false end then ROk None
  else
    match byte_offset_to_lsp_position (f_start f) content enc with
    | RPanic => RPanic
    | RErr => ROk None
    | ROk a =>
        match byte_offset_to_lsp_position (f_end f) content enc with
        | RPanic => RPanic
        | RErr => ROk None
        | ROk b => ROk (Some (TEdit a b (f_content f)))
        end
    end.

(** [offset_to_position] of server.rs:672-678: bytes, whatever the encoding. *)
Definition count_nl (t : text) : nat := length (filter (N.eqb nl) t).
Definition server_offset_to_position (content : text) (off : nat) : res pos :=
  match bsplit (Nat.min off (blen content)) content with
  | None => RPanic
  | Some (before, _) => ROk (count_nl before, off - (blen before - blen (line_prefix before)))
  end.
(** The [line] field of an insertion point: the newlines before the point in the text it was
    computed on (suppression_edit.rs:198, 218, 232, 247, 262). *)
Definition point_line (src : text) (pt : point) : res nat :=
  match bsplit (pt_offset pt) src with None => RPanic | Some (before, _) => ROk (count_nl before) end.
(** The edit of [diagnostic_to_jarl_ignore_rule_action], server.rs:562-586, for an insertion point
    and its [line].  (The test whether the previous line already has such a comment is in Model/Actions.v.) *)
Definition suppress_edit (content : text) (rule_name : text) (pt : point) (line : nat) : res tedit :=
  let comment := format_suppression_comments [rule_name] (lit "<reason>") (pt_indent pt) (pt_newline pt) in
  if pt_newline pt then
    rbind (server_offset_to_position content (pt_offset pt)) (fun p => ROk (TEdit p p comment))
  else ROk (TEdit (line, 0) (line, 0) comment).
(** R files: the point and its line are computed on the file, server.rs:533-540 *)
Definition suppress_action (content : text) (rule_name : text) (chain : option (list anc)) (start : nat) : res tedit :=
  match compute_insert_point content chain start with
  | None => RPanic
  | Some pt => rbind (point_line content pt) (suppress_edit content rule_name pt)
  end.
(** Rmd files: the offset is moved to the file, the line is not (suppression_edit.rs:437-441). *)
Fixpoint suppress_action_rmd (content : text) (rule_name : text) (chain : raw -> nat -> option (list anc))
  (start : nat) (cs : list raw) : res (option tedit) :=
  match cs with
  | [] => ROk None
  | c :: r =>
      if (r_start c <=? start) && (start <=? r_start c + blen (r_code c)) then
        match compute_insert_point (r_code c) (chain c (start - r_start c)) (start - r_start c) with
        | None => RPanic
        | Some pt =>
            rbind (point_line (r_code c) pt) (fun line =>
            rbind (suppress_edit content rule_name (Point (r_start c + pt_offset pt) (pt_indent pt) (pt_newline pt)) line)
              (fun e => ROk (Some e)))
        end
      else suppress_action_rmd content rule_name chain start r
  end.
(** The position of [diagnostic_to_jarl_ignore_chunk_action], server.rs:627-651 (chunk given). *)
Definition chunk_action (content : text) (rule_name : text) (c : raw) : res tedit :=
  rbind (server_offset_to_position content (r_start c)) (fun p =>
    ROk (TEdit p p (lit "#| jarl-ignore-chunk:" ++ [nl] ++ lit "#|   - " ++ rule_name ++ lit ": <reason>" ++ [nl]))).

(** [ranges_overlap], server.rs:687-689; positions compare by line then character. *)
Definition pos_le (a b : pos) : bool := (fst a <? fst b) || ((fst a =? fst b) && (snd a <=? snd b)).
Definition ranges_overlap (a b : pos * pos) : bool := pos_le (fst a) (snd b) && pos_le (fst b) (snd a).

(** [generate_code_actions], server.rs:413-447, the actions that apply a fix; the ranges of the
    diagnostics are those of [convert_to_lsp_diagnostic] (an error there makes the list empty). *)
Fixpoint quick_fixes (content : text) (enc : encoding) (requested : pos * pos) (ds : list diag) : res (list tedit) :=
  match ds with
  | [] => ROk []
  | d :: r =>
      rbind (lsp_range (d_start d) (d_end d) content enc) (fun rg =>
      rbind (if ranges_overlap rg requested
             then rbind (code_action d content enc) (fun o => ROk (match o with Some te => [te] | None => [] end))
             else ROk []) (fun l =>
      rbind (quick_fixes content enc requested r) (fun l' => ROk (l ++ l'))))
  end.

(** ** Exclusion patterns, utils.rs:15-84 *)
(** [str::replace('\\', "/")] *)
Definition normalize (path : text) : text := map (fun c => if N.eqb c 92 then 47%N else c) path.
Definition ends_with (p t : text) : bool := starts_with (rev p) (rev t).
(** [trim_end_matches('/')] *)
Definition trim_slashes (p : text) : text := rev (drop_while (N.eqb 47) (rev p)).
Definition last_component (path : text) : text := last (split_on 47%N path) [].
(** [str::find]: what follows the first occurrence. *)
Fixpoint find_after (p t : text) : option text :=
  match strip_prefix p t with
  | Some r => Some r
  | None => match t with [] => None | _ :: r => find_after p r end
  end.
Fixpoint parts_in_order (ps : list text) (rest : text) : bool :=
  match ps with
  | [] => true
  | p :: r => match find_after p rest with Some t => parts_in_order r t | None => false end
  end.
Definition matches_pattern (path pattern : text) : bool :=
  let path := normalize path in
  if ends_with (lit "/") pattern then existsb (teqb (trim_slashes pattern)) (split_on 47%N path)
  else if existsb (N.eqb 42) pattern then
    let filename := last_component path in
    match split_on 42%N pattern with
    | [] => false
    | p :: ps =>
        match strip_prefix p filename with
        | None => false
        | Some rest => (match ps with [] => true | _ => ends_with (last ps []) filename end) && parts_in_order ps rest
        end
    end
  else teqb (last_component path) pattern.
(** [should_exclude_file_based_on_settings], utils.rs:118-163, for the settings in effect. *)
Definition excluded (defaults : list text) (default_exclude : option bool) (exclude include : option (list text))
  (path : text) : bool :=
  let patterns := (if match default_exclude with Some b => b | None => true end then defaults else [])
                  ++ match exclude with Some l => l | None => [] end in
  if existsb (matches_pattern path) patterns then true
  else match include with
       | Some (p :: ps) => negb (existsb (matches_pattern path) (p :: ps))
       | _ => false
       end.
