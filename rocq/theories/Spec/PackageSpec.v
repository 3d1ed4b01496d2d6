(** Specification vocabulary for the package-level analyses (C21, C22, C55, C56): what a function
    definition, a reference and an export are, as texts. *)
From Verif Require Import Model.Text Model.Base Model.Cli Model.Package Spec.DriverSpec.

(** The Unicode predicate [char::is_alphanumeric]: on ASCII it accepts letters and digits; it accepts
    no white space. *)
Definition unicode_alnum (is_alnum : char -> bool) : Prop :=
  (forall c, (c < 128)%N -> is_alnum c = ascii_alnum c) /\ (forall c, is_ws c = true -> is_alnum c = false).

(** ** Definitions *)
Section Defs.
Variable is_alnum : char -> bool.
(** A letter, a digit, [.] or [_]. *)
Definition name_char (c : char) : Prop := is_alnum c = true \/ c = 46%N \/ c = 95%N.
(** White space inside a line. *)
Definition blank (c : char) : Prop := is_ws c = true /\ c <> nl.
Definition at_line_start (pre : text) : Prop := pre = [] \/ exists p, pre = p ++ [nl].
(** 1 + the number of newlines. *)
Definition line_number (pre : text) : nat := 1 + length (filter (N.eqb nl) pre).
(** A lambda (backslash), or the keyword [function]. *)
Definition fun_start (rhs : text) : Prop :=
  (exists r, rhs = 92%N :: r) \/
  (exists r, rhs = lit "function" ++ r /\ forall c r', r = c :: r' -> ~ name_char c).
(** What follows the name in a definition. *)
Definition assigned (rest : text) : Prop :=
  exists ws1 op ws2 rhs, rest = ws1 ++ op ++ ws2 ++ rhs /\ Forall blank ws1 /\ Forall blank ws2 /\
    (op = lit "<-" \/ op = lit "=") /\ fun_start rhs.
(** [content] contains, at the beginning of line [line] (from 1) and at byte [start],
    [name <- function] or [name = function] (or a lambda). *)
Definition defines (content name : text) (start line : nat) : Prop :=
  name <> [] /\ Forall name_char name /\
  exists pre rest, content = pre ++ name ++ rest /\ at_line_start pre /\ assigned rest /\
    start = blen pre /\ line = line_number pre.

(** A definition in the file [p] of the R directory [root]. *)
Definition fun_def (fs : list pfile) (root p : dpath) (d : adef) : Prop :=
  exists f, In f fs /\ pf_scope f = SR /\ pf_root f = root /\ pf_path f = p /\
    defines (pf_content f) (ad_name d) (ad_start d) (ad_line d) /\
    ad_end d = ad_start d + blen (ad_name d).
(** Order of definitions: by file path, then by line. *)
Definition before (p : dpath) (d : adef) (p' : dpath) (d' : adef) : Prop :=
  pcmp p p' = Lt \/ p = p' /\ ad_line d < ad_line d'.
(** No file is listed twice. *)
Definition distinct_files (fs : list pfile) : Prop :=
  NoDup (map pf_path (filter (fun f => scope_eqb (pf_scope f) SR) fs)).

(** ** References *)
(** Characters of ASCII identifiers. *)
Definition wordy (c : char) : Prop := ascii_alnum c = true \/ c = 46%N \/ c = 95%N.
(** An ASCII identifier that does not begin with a digit. *)
Definition plain_name (name : text) : Prop :=
  Forall wordy name /\ exists c r, name = c :: r /\ ascii_digit c = false.
(** A whole word lies between [pre] and [post]. *)
Definition word_at (pre post : text) : Prop :=
  (forall a c, pre = a ++ [c] -> ~ wordy c) /\ (forall c b, post = c :: b -> ~ wordy c).
(** The same, but the word may directly follow a number (as [L] in [1L]). *)
Definition loose_word_at (pre post : text) : Prop :=
  exists a ds, pre = a ++ ds /\ Forall (fun c => ascii_digit c = true) ds /\ word_at a post.
(** [pre] ends inside a comment line: the first character of the line that is not white space is [#],
    and it is not followed by a single quote (roxygen). *)
Definition in_comment (pre : text) : Prop :=
  exists p ws r, pre = p ++ ws ++ 35%N :: r /\ at_line_start p /\ Forall blank ws /\ ~ In nl r /\
    forall r', r <> 39%N :: r'.
(** A reference: an occurrence in code that is not the name of a definition. *)
Definition referenced (content name : text) : Prop :=
  exists pre post, content = pre ++ name ++ post /\ word_at pre post /\ ~ in_comment pre /\
    ~ (at_line_start pre /\ assigned post).
(** An occurrence in code, definition or not. *)
Definition mentioned (content name : text) : Prop :=
  exists pre post, content = pre ++ name ++ post /\ word_at pre post /\ ~ in_comment pre.
(** The same with [loose_word_at]. *)
Definition maybe_referenced (content name : text) : Prop :=
  exists pre post, content = pre ++ name ++ post /\ loose_word_at pre post /\ ~ in_comment pre /\
    ~ (at_line_start pre /\ assigned post).
Definition maybe_mentioned (content name : text) : Prop :=
  exists pre post, content = pre ++ name ++ post /\ loose_word_at pre post /\ ~ in_comment pre.

(** ** NAMESPACE *)
(** [l] is a line of [ns], up to surrounding white space. *)
Definition ns_line (ns l : text) : Prop :=
  exists pre w1 w2 post, ns = pre ++ w1 ++ l ++ w2 ++ post /\ at_line_start pre /\ Forall blank w1 /\ Forall blank w2 /\
    ~ In nl l /\ (post = [] \/ exists b, post = nl :: b).
(** [arg] is [x], possibly in double or single quotes, surrounded by white space. *)
Definition as_arg (x arg : text) : Prop :=
  exists w1 q w2, arg = w1 ++ q ++ x ++ q ++ w2 /\ Forall blank w1 /\ Forall blank w2 /\
    (q = [] \/ q = [34%N] \/ q = [39%N]).
(** The arguments [args] (separated by commas) contain [x]. *)
Definition among (x args : text) : Prop :=
  exists a1 arg a2, args = a1 ++ arg ++ a2 /\ as_arg x arg /\
    (a1 = [] \/ exists b, a1 = b ++ [44%N]) /\ (a2 = [] \/ exists b, a2 = 44%N :: b).
(** Exported by a directive written on one line: [export(...)], [exportPattern(...)],
    [S3method(generic, class)], [S3method(generic, class, function)], [exportMethods(...)] or
    [exportClasses(...)]. *)
Inductive exported (regex : text -> option (text -> bool)) (ns name : text) : Prop :=
| Ex_name args : ns_line ns (lit "export(" ++ args ++ lit ")") -> among name args -> exported regex ns name
| Ex_pattern pat q m : ns_line ns (lit "exportPattern(" ++ q ++ pat ++ q ++ lit ")") ->
    (q = [34%N] \/ q = [39%N]) -> (forall c r, pat = c :: r -> c <> 34%N /\ c <> 39%N) ->
    (forall c r, pat = r ++ [c] -> c <> 34%N /\ c <> 39%N) ->
    (forall a b, pat <> a ++ lit "export(" ++ b) ->
    regex pat = Some m -> m name = true -> exported regex ns name
| Ex_s3 generic class g c : ns_line ns (lit "S3method(" ++ g ++ lit "," ++ c ++ lit ")") ->
    as_arg generic g -> as_arg class c -> plain_name generic -> plain_name class ->
    name = generic ++ lit "." ++ class -> exported regex ns name
| Ex_s3_fun generic class g c f : ns_line ns (lit "S3method(" ++ g ++ lit "," ++ c ++ lit "," ++ f ++ lit ")") ->
    as_arg generic g -> as_arg class c -> plain_name generic -> plain_name class -> as_arg name f ->
    exported regex ns name
| Ex_methods args : ns_line ns (lit "exportMethods(" ++ args ++ lit ")") -> ~ In 40%N args -> among name args -> exported regex ns name
| Ex_classes args : ns_line ns (lit "exportClasses(" ++ args ++ lit ")") -> ~ In 40%N args -> among name args -> exported regex ns name.

(** [x] is a part of [t]. *)
Definition occurs (x t : text) : Prop := exists a b, t = a ++ x ++ b.
(** The NAMESPACE file may export [name]: it contains the name, or the two halves of it and the
    directive [S3method], or [exportPattern] and a pattern that matches it. *)
Definition maybe_exported (regex : text -> option (text -> bool)) (ns name : text) : Prop :=
  occurs name ns \/
  (exists generic class, name = generic ++ lit "." ++ class /\ occurs generic ns /\ occurs class ns /\ occurs (lit "S3method(") ns) \/
  (exists pat m, occurs (lit "exportPattern(") ns /\ occurs pat ns /\ regex pat = Some m /\ m name = true).

(** Functions that R calls when a package is loaded or attached. *)
Definition hook (name : text) : Prop :=
  In name [lit ".onLoad"; lit "on_load"; lit ".onAttach"; lit ".onDetach"; lit ".onUnload"; lit ".Last.lib"; lit ".First.lib"].
(** A prefix of [name] that ends before a dot: [name] may be a method of the generic [g]. *)
Definition generic_of (name g : text) : Prop := exists r, name = g ++ lit "." ++ r.
End Defs.

(** Some file of R/ of the package with directory [root] contains the word [x]. *)
Definition r_mentions (fs : list pfile) (root : dpath) (x : text) : Prop :=
  exists g, In g fs /\ pf_root g = root /\ pf_scope g = SR /\ maybe_mentioned (pf_content g) x.

(** ** Where a file of a package lies *)
Inductive area : dpath -> scope -> Prop :=
| Area_tests r : area (lit "tests" :: r) STests
| Area_tinytest r : area (lit "inst" :: lit "tinytest" :: r) SInst
| Area_inst_tests r : area (lit "inst" :: lit "tests" :: r) SInst
| Area_src r : area (lit "src" :: r) SSrc.

(** ** The files of a package that are searched (C22) *)
(** [root] is the package of [q]: the deepest directory above [q] with a DESCRIPTION file. *)
Definition package_of (has_description : dpath -> bool) (q root : dpath) : Prop :=
  has_description root = true /\ (exists rest, rest <> [] /\ q = root ++ rest) /\
  forall d rest, rest <> [] -> q = d ++ rest -> has_description d = true -> length d <= length root.
(** An R file of R/, or a file of tests/, inst/tinytest/ or inst/tests/ (R files) or src/ (C and C++
    files) of the package. *)
Definition r_source (root q : dpath) : Prop := exists n, q = root ++ [lit "R"; n] /\ r_file q = true.
(** The name of a C or C++ file. *)
Definition c_path (f : text) : Prop :=
  named_with (lit "c") f \/ named_with (lit "cpp") f \/ named_with (lit "h") f \/ named_with (lit "hpp") f.
Definition other_source (root q : dpath) : Prop :=
  exists rest s, q = root ++ rest /\ area rest s /\
    (s = SSrc -> c_path (last q [])) /\ (s <> SSrc -> script_path (last q [])).
