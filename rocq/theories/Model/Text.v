(** Texts: Rust [String]/[&str] values.

    A text is a list of Unicode scalar values.  Byte offsets refer to the UTF-8
    encoding; [u8len] is the number of bytes of a scalar in UTF-8 (as in Rust's
    [char::len_utf8]).  Slicing at a byte offset that is out of range or not on a
    character boundary panics in Rust; here it is [None].
    Simplification: a scalar is any [N]; surrogates / values above 0x10FFFF are not
    excluded (theorems then hold for a superset of the real strings). *)
From Coq Require Export List Arith ZArith NArith Bool Lia.
From Coq Require Ascii String.
Export Ascii.AsciiSyntax String.StringSyntax.
Export ListNotations.
Open Scope nat_scope.

Definition char := N.
Definition text := list char.

(** Rust [char::len_utf8]. *)
Definition u8len (c : char) : nat :=
  if (c <? 128)%N then 1
  else if (c <? 2048)%N then 2
  else if (c <? 65536)%N then 3 else 4.

(** Rust [str::len]: length in bytes. *)
Fixpoint blen (t : text) : nat :=
  match t with [] => 0 | c :: r => u8len c + blen r end.

(** Rust [str::split_at] at a byte offset ([None] = panic). *)
Fixpoint bsplit (n : nat) (t : text) {struct t} : option (text * text) :=
  match n with
  | O => Some ([], t)
  | _ =>
      match t with
      | [] => None
      | c :: r =>
          if u8len c <=? n then
            match bsplit (n - u8len c) r with
            | Some (a, b) => Some (c :: a, b)
            | None => None
            end
          else None
      end
  end.

(** [&s[a..b]] ([None] = panic). *)
Definition bslice (a b : nat) (t : text) : option text :=
  if a <=? b then
    match bsplit b t with
    | Some (p, _) =>
        match bsplit a p with Some (_, m) => Some m | None => None end
    | None => None
    end
  else None.

(** [String::replace_range(a..b, new)] ([None] = panic). *)
Definition breplace (a b : nat) (new t : text) : option text :=
  if a <=? b then
    match bsplit a t with
    | Some (p, r) =>
        match bsplit (b - a) r with
        | Some (_, q) => Some (p ++ new ++ q)
        | None => None
        end
    | None => None
    end
  else None.

(** Literals: an ASCII Coq string as a text. *)
Fixpoint lit (s : String.string) : text :=
  match s with
  | String.EmptyString => []
  | String.String a r => Ascii.N_of_ascii a :: lit r
  end.

Arguments lit s%string_scope.

Definition ceqb (a b : char) : bool := N.eqb a b.

Fixpoint teqb (a b : text) : bool :=
  match a, b with
  | [], [] => true
  | x :: a', y :: b' => N.eqb x y && teqb a' b'
  | _, _ => false
  end.

(** [str::strip_prefix]. *)
Fixpoint strip_prefix (p t : text) : option text :=
  match p, t with
  | [], _ => Some t
  | x :: p', y :: t' => if N.eqb x y then strip_prefix p' t' else None
  | _ :: _, [] => None
  end.

(** [str::starts_with]. *)
Definition starts_with (p t : text) : bool :=
  match strip_prefix p t with Some _ => true | None => false end.

(** Rust [char::is_whitespace]: Unicode White_Space. *)
Definition is_ws (c : char) : bool :=
  ((9 <=? c) && (c <=? 13))%N || (c =? 32)%N || (c =? 133)%N || (c =? 160)%N
  || (c =? 5760)%N || ((8192 <=? c) && (c <=? 8202))%N || (c =? 8232)%N || (c =? 8233)%N
  || (c =? 8239)%N || (c =? 8287)%N || (c =? 12288)%N.

(** [str::trim_start], [trim_end], [trim]. *)
Fixpoint trim_start (t : text) : text :=
  match t with
  | [] => []
  | c :: r => if is_ws c then trim_start r else t
  end.
Definition trim_end (t : text) : text := rev (trim_start (rev t)).
Definition trim (t : text) : text := trim_end (trim_start t).

(** [str::find(char)] split form: text before and after the first occurrence. *)
Fixpoint find_char (x : char) (t : text) : option (text * text) :=
  match t with
  | [] => None
  | c :: r =>
      if N.eqb c x then Some ([], r)
      else match find_char x r with
           | Some (a, b) => Some (c :: a, b)
           | None => None
           end
  end.

(** [str::contains(&str)]. *)
Fixpoint contains (p t : text) : bool :=
  starts_with p t || match t with [] => false | _ :: r => contains p r end.

Definition ascii_char (c : char) : bool := (c <? 128)%N.
Definition ascii_text (t : text) : bool := forallb ascii_char t.

Definition nl : char := 10%N.
