(** Replacing an expression wherever the surroundings look the same. *)
From Verif Require Export Spec.RFix Spec.RPosition.

(** ** Places that look alike: the same operators, keywords, brackets and argument names on the way up to the
    statement; other operands may differ. *)
Definition hole : expr := EAtom ANull.
Definition bare_arg (a : arg) : arg := (fst a, option_map (fun _ => hole) (snd a)).
Definition bare_param (a : param) : param := (fst a, option_map (fun _ => hole) (snd a)).
Definition bare_frame (f : frame) : frame :=
  match f with
  | FParen => FParen
  | FUn u => FUn u
  | FBinL o nl _ => FBinL o nl hole
  | FBinR o nl _ => FBinR o nl hole
  | FCallF args => FCallF (map bare_arg args)
  | FCallA _ pre n post => FCallA hole (map bare_arg pre) n (map bare_arg post)
  | FSubX d args => FSubX d (map bare_arg args)
  | FSubA d _ pre n post => FSubA d hole (map bare_arg pre) n (map bare_arg post)
  | FExtract o n => FExtract o n
  | FIfC _ el => FIfC hole (option_map (fun _ => hole) el)
  | FIfT _ el => FIfT hole (option_map (fun _ => hole) el)
  | FIfE _ _ => FIfE hole hole
  | FFunP pre n post _ => FFunP (map bare_param pre) n (map bare_param post) hole
  | FFunB ps => FFunB (map bare_param ps)
  | FForS v _ => FForS v hole
  | FForB v _ => FForB v hole
  | FWhileC _ => FWhileC hole
  | FWhileB _ => FWhileB hole
  | FRepeat => FRepeat
  | FBraces pre post => FBraces (map (fun _ => hole) pre) (map (fun _ => hole) post)
  end.
Definition alike (fs gs : list frame) : Prop := map bare_frame fs = map bare_frame gs.

(** In every place that looks like [fs], R reads the new code as one expression there, and the program behaves as
    before. *)
Definition replaceable (P : interp -> Prop) (fs : list frame) (old new : expr) : Prop :=
  forall p, alike (frames p) fs -> node_of_file p old ->
    node_of_file p new /\ same_behaviour P (file_with p old) (file_with p new).
(** The new text of the fix is an expression, which may replace the one reported. *)
Definition fix_replaceable (P : interp -> Prop) (r : report) : Prop :=
  forall c, new_text r = Some c -> exists e', c = toks e' /\ replaceable P (at_frames r) (at_node r) e'.
