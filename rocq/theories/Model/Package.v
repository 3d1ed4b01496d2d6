(** Package-level analysis: crates/jarl-core/src/package.rs,
    lints/base/duplicated_function_definition/duplicated_function_definition.rs and
    lints/base/unused_function/unused_function.rs.

    Simplifications: [relativize_path] is the identity (within one R directory it removes the same
    prefix from every path, so the order of paths is unchanged); hash maps from names to counts are
    represented by the list of occurrences; the parallel scan (package.rs:172-218) keeps the order of
    the files ([par_iter().filter_map().collect()]).  [char::is_alphanumeric] (Unicode tables) and the
    regular expressions are parameters. *)
From Verif Require Import Model.Text Model.Base Model.Fix Model.Driver Model.Cli.

Definition ascii_alpha (c : char) : bool := ((65 <=? c) && (c <=? 90) || (97 <=? c) && (c <=? 122))%N.
Definition ascii_digit (c : char) : bool := ((48 <=? c) && (c <=? 57))%N.
Definition ascii_alnum (c : char) : bool := ascii_alpha c || ascii_digit c.
Definition dot_or_us (c : char) : bool := N.eqb c 46%N || N.eqb c 95%N.

(** The longest prefix whose characters satisfy [f], and the rest. *)
Fixpoint span (f : char -> bool) (t : text) : text * text :=
  match t with
  | [] => ([], [])
  | c :: r => if f c then let '(a, b) := span f r in (c :: a, b) else ([], t)
  end.

(** ** duplicated_function_definition.rs:58-120 [scan_top_level_assignments] *)
Section Scan.
Variable is_alnum : char -> bool.
Definition ident_char (c : char) : bool := is_alnum c || dot_or_us c.

(** [trim_end_matches(c)]. *)
Fixpoint drop_while (x : char) (t : text) : text :=
  match t with [] => [] | c :: r => if N.eqb c x then drop_while x r else t end.
Definition trim_end_matches (x : char) (t : text) : text := rev (drop_while x (rev t)).
Definition strip_eol (l : text) : text := trim_end_matches 13%N (trim_end_matches nl l).

(** The right-hand side starts a function (lines 92-100): the keyword [function] as a whole word, or
    a backslash. *)
Definition starts_function (rhs : text) : bool :=
  (match strip_prefix (lit "function") rhs with
   | Some [] => true
   | Some (c :: _) => negb (ident_char c)
   | None => false
   end)
  || match rhs with c :: _ => N.eqb c 92%N | [] => false end.
(** Lines 72-113, on a line without its terminator: the name of the function defined there. *)
Definition scan_line (line : text) : option text :=
  match line with
  | [] => None
  | c :: _ =>
      if is_ws c || N.eqb c 35%N then None
      else
        let '(name, after) := span ident_char line in
        match name with
        | [] => None
        | _ =>
            let after_ident := trim_start after in
            let after_op :=
              match strip_prefix (lit "<-") after_ident with
              | Some r => Some (trim_start r)
              | None =>
                  match after_ident with
                  | 61%N :: r => match r with 61%N :: _ => None | _ => Some (trim_start r) end
                  | _ => None
                  end
              end in
            match after_op with
            | Some rhs => if starts_function rhs then Some name else None
            | None => None
            end
        end
  end.
(** A definition: its name, byte range and line number (from 1); the column is always 1. *)
Record adef := mk_def { ad_name : text; ad_start : nat; ad_end : nat; ad_line : nat }.
Fixpoint scan_from (off line_no : nat) (ls : list text) : list adef :=
  match ls with
  | [] => []
  | l :: r =>
      let rest := scan_from (off + blen l) (line_no + 1) r in
      match scan_line (strip_eol l) with
      | Some name => mk_def name off (off + blen name) line_no :: rest
      | None => rest
      end
  end.
Definition scan_top_level_assignments (content : text) : list adef := scan_from 0 1 (split_incl content).
End Scan.

(** ** unused_function.rs:183-222 [scan_symbols] *)
Definition word_start (c : char) : bool := ascii_alpha c || dot_or_us c.
Definition word_char (c : char) : bool := ascii_alnum c || dot_or_us c.
(** The words of a line, in order; [cur] is the (reversed) word being read. *)
Fixpoint scan_words (cur : option text) (t : text) : list text :=
  match t with
  | [] => match cur with Some w => [rev w] | None => [] end
  | c :: r =>
      match cur with
      | Some w => if word_char c then scan_words (Some (c :: w)) r else rev w :: scan_words None r
      | None => if word_start c then scan_words (Some [c]) r else scan_words None r
      end
  end.
Definition comment_line (l : text) : bool :=
  let t := trim_start l in starts_with (lit "#") t && negb (starts_with (lit "#'") t).
Definition scan_symbols (content : text) : list text :=
  flat_map (fun l => if comment_line l then [] else scan_words None l) (lines content).
Definition count (name : text) (l : list text) : nat := length (filter (teqb name) l).

(** ** unused_function.rs:58-173: NAMESPACE *)
(** [str::find(&str)], split form. *)
Fixpoint find_sub (p t : text) : option (text * text) :=
  match strip_prefix p t with
  | Some r => Some ([], r)
  | None => match t with
            | [] => None
            | c :: r => match find_sub p r with Some (a, b) => Some (c :: a, b) | None => None end
            end
  end.
(** [rest.rfind(')')] and the text before it. *)
Definition before_last (x : char) (t : text) : option text :=
  match find_char x (rev t) with Some (_, b) => Some (rev b) | None => None end.
(** Lines 58-82 [extract_directive]; the byte before the directive is compared as ASCII. *)
Definition extract_directive (line directive : text) : option text :=
  match find_sub (directive ++ lit "(") line with
  | None => None
  | Some (before, rest) =>
      match rev before with
      | c :: _ => if ascii_alnum c || N.eqb c 95%N then None else before_last 41%N rest
      | [] => before_last 41%N rest
      end
  end.
(** Trim white space, then double quotes (34), then single quotes (39). *)
Definition trim_matches (x : char) (t : text) : text := trim_end_matches x (drop_while x t).
Definition unquote (t : text) : text := trim_matches 39%N (trim_matches 34%N (trim t)).
(** The part after the last double colon ([rsplit_once]), or the whole. *)
Definition strip_pkg (t : text) : text :=
  match find_sub (lit "::") (rev t) with Some (a, _) => rev a | None => t end.

Section Namespace.
(** [Regex::new(p)] then [is_match]; [None] = invalid pattern. *)
Variable regex : text -> option (text -> bool).
Definition list_names (inner : text) : list text :=
  filter (fun n => match n with [] => false | _ => true end) (map unquote (split_on 44%N inner)).
(** Lines 111-163: the names that one directive adds. *)
Definition directive_exports (directive inner : text) (all_names : list text) : list text :=
  if teqb directive (lit "exportPattern") then
    match regex (unquote inner) with
    | Some m => filter m all_names
    | None => []
    end
  else if teqb directive (lit "S3method") then
    match split_on 44%N inner with
    | g :: c :: [] => [strip_pkg (unquote g) ++ lit "." ++ unquote c]
    | _ :: _ :: f :: _ => match unquote f with [] => [] | m => [m] end
    | _ => []
    end
  else list_names inner.
Definition directives : list text :=
  [lit "export"; lit "exportPattern"; lit "S3method"; lit "exportMethods"; lit "exportClasses"].
Fixpoint first_directive (line : text) (ds : list text) (all_names : list text) : list text :=
  match ds with
  | [] => []
  | d :: r => match extract_directive line d with
              | Some inner => directive_exports d inner all_names
              | None => first_directive line r all_names
              end
  end.
Definition line_exports (all_names : list text) (line : text) : list text :=
  let t := trim line in
  match t with
  | [] => []
  | _ => if starts_with (lit "#") t then [] else first_directive t directives all_names
  end.
(** Lines 89-173 [parse_namespace_exports]. *)
Definition parse_namespace_exports (content : text) (all_names : list text) : list text :=
  flat_map (line_exports all_names) (lines content).
End Namespace.

(** ** package.rs: files *)
Inductive scope := SR | STests | SInst | SSrc.
Definition scope_eqb (a b : scope) : bool :=
  match a, b with SR, SR | STests, STests | SInst, SInst | SSrc, SSrc => true | _, _ => false end.
(** package.rs:239-261 [file_scope_from_path]. *)
Fixpoint file_scope_from_path (comps : dpath) : scope :=
  match comps with
  | [] => STests
  | c :: r =>
      if teqb c (lit "tests") then STests
      else if teqb c (lit "inst") && match r with
                | n :: _ => teqb n (lit "tinytest") || teqb n (lit "tests")
                | [] => false
                end then SInst
      else if teqb c (lit "src") then SSrc
      else file_scope_from_path r
  end.
(** package.rs:31-41 [SharedFileData]: [pf_root] is the key of the package (its R directory). *)
Record pfile := mk_pf { pf_root : dpath; pf_path : dpath; pf_scope : scope; pf_content : text }.

(** Grouping by package in order of first appearance; the iteration order of the hash map is a
    parameter of the two analyses. *)
Fixpoint add_file (f : pfile) (gs : list (dpath * list pfile)) :=
  match gs with
  | [] => [(pf_root f, [f])]
  | (k, l) :: r => if peqb (pf_root f) k then (k, l ++ [f]) :: r else (k, l) :: add_file f r
  end.
Definition by_package (fs : list pfile) : list (dpath * list pfile) := fold_left (fun gs f => add_file f gs) fs [].

(** Result maps: [insert] replaces, [extend] appends. *)
Section Maps.
Variable A : Type.
Fixpoint lookup (p : dpath) (m : list (dpath * list A)) : list A :=
  match m with [] => [] | (k, v) :: r => if peqb p k then v else lookup p r end.
Definition rinsert (p : dpath) (v : list A) (m : list (dpath * list A)) := (p, v) :: m.
Definition rextend (p : dpath) (v : list A) (m : list (dpath * list A)) := (p, lookup p m ++ v) :: m.
End Maps.
Arguments lookup {A}. Arguments rinsert {A}. Arguments rextend {A}.
Definition rmap := list (dpath * list adef).

Section Analyses.
Variable is_alnum : char -> bool.
Definition assignments (f : pfile) : list adef :=
  match pf_scope f with SSrc => [] | _ => scan_top_level_assignments is_alnum (pf_content f) end.

(** *** duplicated_function_definition.rs:126-170 [compute_duplicates_from_shared] *)
(** A report: the definition, and the file and line of the first definition (the help text). *)
Definition dup := (adef * (dpath * nat))%type.
Definition dmap := list (dpath * list dup).
Fixpoint first_seen (n : text) (seen : list (text * (dpath * nat))) : option (dpath * nat) :=
  match seen with [] => None | (k, v) :: r => if teqb n k then Some v else first_seen n r end.
(** One file: the first definitions so far (by name), those of this file, in order. *)
Fixpoint file_duplicates (path : dpath) (seen : list (text * (dpath * nat))) (ds : list adef)
  : list (text * (dpath * nat)) * list dup :=
  match ds with
  | [] => (seen, [])
  | d :: r =>
      match first_seen (ad_name d) seen with
      | Some first => let '(s, l) := file_duplicates path seen r in (s, (d, first) :: l)
      | None => file_duplicates path ((ad_name d, (path, ad_line d)) :: seen) r
      end
  end.
Fixpoint package_duplicates (seen : list (text * (dpath * nat))) (fs : list pfile) (m : dmap) : dmap :=
  match fs with
  | [] => m
  | f :: r =>
      let '(seen', dups) := file_duplicates (pf_path f) seen (assignments f) in
      package_duplicates seen' r (match dups with [] => m | _ => rinsert (pf_path f) dups m end)
  end.
Definition path_leb (a b : pfile) : bool := match pcmp (pf_path a) (pf_path b) with Gt => false | _ => true end.
Definition compute_duplicates (order : list (dpath * list pfile) -> list (dpath * list pfile)) (fs : list pfile) : dmap :=
  fold_left (fun m g => package_duplicates [] (sort_by path_leb (snd g)) m)
    (order (by_package (filter (fun f => scope_eqb (pf_scope f) SR) fs))) [].

(** *** unused_function.rs:281-484 [compute_unused_from_shared] *)
Variable regex : text -> option (text -> bool).
(** rule_options/unused_function.rs:55-58 [is_skipped]. *)
Variable is_skipped : text -> bool.
Definition package_hooks : list text :=
  [lit ".onLoad"; lit "on_load"; lit ".onAttach"; lit ".onDetach"; lit ".onUnload"; lit ".Last.lib"; lit ".First.lib"].
(** [name.match_indices('.')]: the prefixes that end before a dot. *)
Fixpoint dot_prefixes (acc t : text) : list text :=
  match t with
  | [] => []
  | c :: r => if N.eqb c 46%N then rev acc :: dot_prefixes (c :: acc) r else dot_prefixes (c :: acc) r
  end.
Definition words_of (fs : list pfile) : list text := flat_map (fun f => scan_symbols (pf_content f)) fs.
Definition names_of (fs : list pfile) : list text := flat_map (fun f => map ad_name (assignments f)) fs.
(** Lines 372-418: a definition in R/ is reported. *)
Definition unused_in_r (exports : list text) (r_files extra : list pfile) (d : adef) : bool :=
  let name := ad_name d in
  negb (mem name exports) && negb (mem name package_hooks) && negb (is_skipped name)
  && negb (existsb (fun p => mem p (words_of r_files)) (dot_prefixes [] name))
  && (count name (words_of r_files) <=? count name (names_of r_files))
  && negb (mem name (words_of extra)).
(** Lines 453-472: a definition in tests/ or inst/. *)
Definition unused_in_scope (files : list pfile) (d : adef) : bool :=
  let name := ad_name d in
  negb (is_skipped name) && (count name (words_of files) <=? count name (names_of files)).
Definition report_scope (files : list pfile) (m : rmap) : rmap :=
  fold_left (fun m f =>
    match filter (unused_in_scope files) (assignments f) with
    | [] => m
    | u => rextend (pf_path f) u m
    end) files m.
Definition unused_package (namespace : dpath -> option text) (fs : list pfile) (m : rmap) : rmap :=
  let of s := filter (fun f => scope_eqb (pf_scope f) s) fs in
  let r_files := of SR in
  let extra := filter (fun f => negb (scope_eqb (pf_scope f) SR)) fs in
  match r_files with
  | [] => m
  | first :: _ =>
      match namespace (pf_root first) with
      | None => m
      | Some ns =>
          let exports := parse_namespace_exports regex ns (names_of r_files) in
          let m1 := fold_left (fun m f =>
                      match filter (unused_in_r exports r_files extra) (assignments f) with
                      | [] => m
                      | u => rinsert (pf_path f) u m
                      end) r_files m in
          report_scope (of SInst) (report_scope (of STests) m1)
      end
  end.
Definition compute_unused (order : list (dpath * list pfile) -> list (dpath * list pfile))
    (namespace : dpath -> option text) (fs : list pfile) : rmap :=
  fold_left (fun m g => unused_package namespace (snd g) m) (order (by_package fs)) [].
End Analyses.

(** ** package.rs:65-170: which files are scanned *)
Section Collect.
(** All files on disk; whether a directory contains a DESCRIPTION file. *)
Variable disk : list dpath.
Variable has_description : dpath -> bool.
Definition parent (p : dpath) : dpath := removelast p.
Definition r_file (p : dpath) : bool := has_r_extension (last p []).
Definition cpp_file (p : dpath) : bool :=
  match extension (last p []) with
  | Some e => teqb e (lit "c") || teqb e (lit "cpp") || teqb e (lit "h") || teqb e (lit "hpp")
  | None => false
  end.
(** package.rs:82-104: the file is in a directory named R next to a DESCRIPTION. *)
Definition in_package (p : dpath) : bool :=
  teqb (last (parent p) []) (lit "R") && has_description (parent (parent p)).
(** unused_function.rs:225-243 [collect_files]: the files below a directory. *)
Definition collect_files (dir : dpath) (pred : dpath -> bool) : list dpath :=
  filter (fun p => under dir p && (length dir <? length p) && pred p) disk.
Fixpoint dedup (l : list dpath) : list dpath :=
  match l with [] => [] | x :: r => if pmem x r then dedup r else x :: dedup r end.
(** package.rs:263-272 [find_package_root]. *)
Definition find_package_root (p : dpath) : option dpath := find has_description (ancestors (parent p)).
Definition scan_list (paths : list dpath) (check_unused : bool) : list (dpath * scope) :=
  let r_dir_files := filter (fun p => r_file p && in_package p) paths in
  let roots := dedup (map (fun p => parent (parent p)) r_dir_files) in
  let excluded := flat_map (fun root =>
        filter (fun p => negb (pmem p r_dir_files)) (collect_files (root ++ [lit "R"]) r_file)) roots in
  let extra := if check_unused then flat_map (fun root =>
        collect_files (root ++ [lit "inst"; lit "tinytest"]) r_file
        ++ collect_files (root ++ [lit "inst"; lit "tests"]) r_file
        ++ collect_files (root ++ [lit "tests"]) r_file
        ++ collect_files (root ++ [lit "src"]) cpp_file) roots else [] in
  map (fun p => (p, SR)) r_dir_files ++ map (fun p => (p, SR)) excluded
  ++ map (fun p => (p, file_scope_from_path p)) extra.
(** package.rs:172-218: [None] when the file cannot be read or has no package. *)
Definition shared (content : dpath -> option text) (e : dpath * scope) : option pfile :=
  match content (fst e) with
  | None => None
  | Some c =>
      match snd e with
      | SR => Some (mk_pf (parent (fst e)) (fst e) SR c)
      | s => match find_package_root (fst e) with
             | Some root => Some (mk_pf (root ++ [lit "R"]) (fst e) s c)
             | None => None
             end
      end
  end.
Definition shared_data (content : dpath -> option text) (paths : list dpath) (check_unused : bool) : list pfile :=
  flat_map (fun e => match shared content e with Some f => [f] | None => [] end) (scan_list paths check_unused).
End Collect.
