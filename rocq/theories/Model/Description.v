(** crates/jarl-core/src/description.rs and the version strings of crates/jarl-core/src/config.rs:509-568. *)
From Verif Require Import Model.Text Model.Base Model.Rules.

(** description.rs:59-101 [parse_dcf].  The map is an association list, most recent insertion first
    ([HashMap::insert] overwrites, so [assoc] finds the last one). *)
Record dcf := mk_dcf { dcf_fields : list (text * text); dcf_key : option text; dcf_val : text }.
Definition dcf_save (s : dcf) : list (text * text) :=
  match dcf_key s with
  | Some k => (k, trim (dcf_val s)) :: dcf_fields s
  | None => dcf_fields s
  end.
Definition dcf_line (s : dcf) (line : text) : dcf :=
  match line with
  | [] => s
  | c :: _ =>
      if is_ws c then mk_dcf (dcf_fields s) (dcf_key s) (dcf_val s ++ trim line ++ lit " ")
      else match find_char 58%N line with
           | None => s
           | Some (k, v) =>
               let v' := trim v in
               mk_dcf (dcf_save s) (Some (trim k)) (match v' with [] => [] | _ => v' ++ lit " " end)
           end
  end.
Definition parse_dcf (t : text) : list (text * text) :=
  dcf_save (fold_left dcf_line (lines t) (mk_dcf [] None [])).
Fixpoint assoc (k : text) (l : list (text * text)) : option text :=
  match l with [] => None | (k', v) :: r => if teqb k k' then Some v else assoc k r end.

(** description.rs:40-57 [extract_version_from_dependency]: slices between the first '(' and the first
    ')' (a panic when ')' comes first), and panics when no version is found. *)
Definition extract_version (dep : text) : res text :=
  match find_char 40%N dep, find_char 41%N dep with
  | Some (a, _), Some (b, _) =>
      match bslice (blen a + 1) (blen b) dep with
      | None => RPanic
      | Some v =>
          match trim (remove_all (lit ">=") v) with
          | [] => RPanic
          | v' => ROk v'
          end
      end
  | _, _ => RPanic
  end.
Fixpoint extract_all (l : list text) : res (list text) :=
  match l with
  | [] => ROk []
  | d :: r => rbind (extract_version d) (fun v => rbind (extract_all r) (fun vs => ROk (v :: vs)))
  end.

(** description.rs:22-38 [get_depend_r_version]. *)
Definition get_depend_r_version (t : text) : res (list text) :=
  match assoc (lit "Depends") (parse_dcf t) with
  | None => ROk []
  | Some deps =>
      extract_all
        (filter (fun s => match s with [] => false | _ => starts_with (lit "R ") s end)
           (map trim (split_on 44%N deps)))
  end.

(** [str::parse::<u32>]: an optional '+', then at least one ASCII digit, value below 2^32. *)
Definition digit (c : char) : option N :=
  if ((48 <=? c) && (c <=? 57))%N then Some (c - 48)%N else None.
Fixpoint digits_val (acc : N) (t : text) : option N :=
  match t with
  | [] => Some acc
  | c :: r => match digit c with Some d => digits_val (10 * acc + d)%N r | None => None end
  end.
Definition parse_u32 (t : text) : option nat :=
  let ds := match t with c :: r => if N.eqb c 43%N then r else t | [] => [] end in
  match ds with
  | [] => None
  | _ => match digits_val 0%N ds with
         | Some v => if (v <? 4294967296)%N then Some (N.to_nat v) else None
         | None => None
         end
  end.

(** config.rs:543-568 [parse_r_version]. *)
Definition parse_r_version (t : text) : res r_version :=
  match split_on 46%N t with
  | [a; b] =>
      match parse_u32 a, parse_u32 b with Some x, Some y => ROk (x, y, 0) | _, _ => RErr end
  | [a; b; c] =>
      match parse_u32 a, parse_u32 b, parse_u32 c with
      | Some x, Some y, Some z => ROk (x, y, z) | _, _, _ => RErr
      end
  | _ => RErr
  end.

(** config.rs:509-541 [determine_minimum_r_version].  [descs] lists, for each linted path, the content
    of the DESCRIPTION file next to it ([None]: there is no such file).  Reading errors are not modelled. *)
Fixpoint version_from_descriptions (descs : list (option text)) : res (option r_version) :=
  match descs with
  | [] => ROk None
  | None :: r => version_from_descriptions r
  | Some d :: r =>
      rbind (get_depend_r_version d) (fun vs =>
        match vs with
        | v :: _ => rbind (parse_r_version v) (fun x => ROk (Some x))
        | [] => version_from_descriptions r
        end)
  end.
Definition determine_minimum_r_version (cli : option text) (descs : list (option text)) : res (option r_version) :=
  match cli with
  | Some v => rbind (parse_r_version v) (fun x => ROk (Some x))
  | None => version_from_descriptions descs
  end.
