(** DESCRIPTION files: what the value of a field is. *)
From Verif Require Import Model.Text Model.Base.

Definition starts_field (l : text) : Prop := exists c r, l = c :: r /\ is_ws c = false /\ In 58%N l.
Definition field_key (l : text) (k : text) : Prop := exists a b, l = a ++ 58%N :: b /\ ~ In 58%N a /\ trim a = k.
Definition continuation (l : text) : Prop := exists c r, l = c :: r /\ is_ws c = true.

(** The lines of a text: each ends at a line feed, or at a carriage return and a line feed; the last one
    may end with the text. *)
Inductive text_lines : text -> list text -> Prop :=
| tl_none : text_lines [] []
| tl_last l : l <> [] -> ~ In nl l -> text_lines l [l]
| tl_line l t ls : ~ In nl l -> (forall x, l <> x ++ [13%N]) -> text_lines t ls -> text_lines (l ++ [nl] ++ t) (l :: ls)
| tl_crlf l t ls : ~ In nl l -> text_lines t ls -> text_lines (l ++ [13%N; nl] ++ t) (l :: ls).

(** Among the lines of the file, the last field called [k] starts with the line [k:v] and is continued by
    the (indented) lines [conts]. *)
Definition last_field (ls : list text) (k v : text) (conts : list text) : Prop :=
  exists pre post,
    ls = pre ++ (k ++ 58%N :: v) :: conts ++ post /\
    Forall continuation conts /\
    match post with [] => True | l :: _ => starts_field l end /\
    (forall l, In l post -> starts_field l -> ~ field_key l k).

(** The dependencies listed by a field: its pieces between commas, without surrounding white space. *)
Definition field_text (v : text) (conts : list text) : text := trim v ++ concat (map (fun c => lit " " ++ trim c) conts).
Definition dependencies (v : text) (conts : list text) : list text := map trim (split_on 44%N (field_text v conts)).
