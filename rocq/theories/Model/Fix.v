(** Model of [apply_fixes] — crates/jarl-core/src/fix.rs:25-65. *)
From Verif Require Import Model.Text.
Local Open Scope Z_scope.

(** crates/jarl-core/src/diagnostic.rs:10-30: [struct Fix] and [Fix::empty]. *)
Record rfix := mk_fix { f_content : text; f_start : nat; f_end : nat; f_skip : bool }.
Definition empty_fix : rfix := mk_fix [] 0 0 true.

(** [chars().count() as i32] (fix.rs:35, 61).  Simplification: [i32] is modelled by
    unbounded [Z]; the code itself panics ([try_into().unwrap()], fix.rs:39-40) for offsets
    above [i32::MAX] and its additions are not checked. *)
Definition char_count (t : text) : Z := Z.of_nat (length t).

(** [new_content.replace_range(start as usize .. end as usize, ..)] (fix.rs:57-60):
    a negative [i32] cast to [usize] is out of range of any string, hence a panic. *)
Definition replace_range_i32 (s e : Z) (new t : text) : option text :=
  if (s <? 0) || (e <? 0) then None
  else breplace (Z.to_nat s) (Z.to_nat e) new t.

(** Loop state: [new_content], [last_modified_pos], [has_skipped_fixes], [new_length]
    (fix.rs:31-36). *)
Record fstate := mk_fstate {
  fs_content : text; fs_last : Z; fs_skipped : bool; fs_newlen : Z }.

(** One iteration of the loop (fix.rs:38-62); [None] = panic. *)
Definition fix_step (old_length : Z) (st : fstate) (f : rfix) : option fstate :=
  let diff := fs_newlen st - old_length in
  let s := Z.of_nat (f_start f) + diff in
  let e := Z.of_nat (f_end f) + diff in
  if s <? fs_last st then
    Some (mk_fstate (fs_content st) (fs_last st) true (fs_newlen st))
  else
    match replace_range_i32 s e (f_content f) (fs_content st) with
    | None => None
    | Some c => Some (mk_fstate c (e + diff) (fs_skipped st) (char_count c))
    end.

Fixpoint fix_loop (old_length : Z) (st : fstate) (fs : list rfix) : option fstate :=
  match fs with
  | [] => Some st
  | f :: r =>
      match fix_step old_length st f with
      | None => None
      | Some st' => fix_loop old_length st' r
      end
  end.

Definition fix_init (t : text) : fstate := mk_fstate t 0 false (char_count t).

(** fix.rs:25-65. [None] = panic; the list of diagnostics is represented by their fixes
    (fix.rs:26-29). *)
Definition apply_fixes (fs : list rfix) (t : text) : option (bool * text) :=
  match fix_loop (char_count t) (fix_init t) fs with
  | None => None
  | Some st => Some (fs_skipped st, fs_content st)
  end.
