(** Concrete programs for the theorems on unreachable code. *)
From Verif Require Import Model.Text Model.Base Model.Cfg Spec.CfgSpec Proofs.TextProofs.
Import ListNotations.

(** A checker for [well_ranged]. *)
Fixpoint orderedb (lo : nat) (l : list stmt) (hi : nat) : bool :=
  match l with
  | [] => lo <=? hi
  | s :: l => (lo <=? r_start (rng s)) && (r_start (rng s) <? r_end (rng s)) && orderedb (r_end (rng s)) l hi
  end.

Fixpoint rangedb (s : stmt) : bool :=
  (r_start (rng s) <? r_end (rng s)) && orderedb (S (r_start (rng s))) (children s) (r_end (rng s)) &&
  match s with
  | Block _ l => forallb rangedb l
  | If _ _ t (Some e) => rangedb t && rangedb e
  | If _ _ t None => rangedb t
  | For _ b | While _ _ b | Repeat _ b => rangedb b
  | _ => true
  end.

Lemma orderedb_ok l : forall lo hi, orderedb lo l hi = true -> ordered lo l hi.
Proof.
  induction l as [|s l IH]; intros lo hi H; cbn [orderedb ordered] in *.
  - now apply Nat.leb_le.
  - apply andb_prop in H. destruct H as (H & H2). apply andb_prop in H. destruct H as (H & H1).
    apply Nat.leb_le in H. apply Nat.ltb_lt in H1. auto.
Qed.

Lemma rangedb_ok s : rangedb s = true -> well_ranged s.
Proof.
  intros H n D. induction D as [s|s c n Hc D IH].
  - assert (H' : (r_start (rng s) <? r_end (rng s)) && orderedb (S (r_start (rng s))) (children s) (r_end (rng s)) = true).
    { destruct s; cbn [rangedb] in H; apply andb_prop in H; tauto. }
    apply andb_prop in H'. destruct H' as (A & B). apply Nat.ltb_lt in A. apply orderedb_ok in B. auto.
  - apply IH. destruct s as [| | | | |r l|r c' t [e|]|r b|r c' b|r b]; cbn [rangedb children] in *; try (now destruct Hc);
      apply andb_prop in H; destruct H as (_ & H).
    + rewrite forallb_forall in H. auto.
    + apply andb_prop in H. destruct Hc as [<-|[<-|[]]]; tauto.
    + destruct Hc as [<-|[]]; tauto.
    + destruct Hc as [<-|[]]; tauto.
    + destruct Hc as [<-|[]]; tauto.
    + destruct Hc as [<-|[]]; tauto.
Qed.

Fixpoint no_returnb (s : stmt) : bool :=
  match s with
  | Return _ => false
  | Block _ l => forallb no_returnb l
  | If _ _ t (Some e) => no_returnb t && no_returnb e
  | If _ _ t None => no_returnb t
  | For _ b | While _ _ b | Repeat _ b => no_returnb b
  | _ => true
  end.

Lemma no_returnb_ok s : no_returnb s = true -> no_bare_return s.
Proof.
  intros H r D. remember (Return r) as q eqn:E. revert H. induction D as [s|s c n Hc D IH]; intros H.
  - now subst.
  - apply IH; auto. destruct s as [| | | | |r0 l|r0 c' t [e|]|r0 b|r0 c' b|r0 b]; cbn [no_returnb children] in *; try (now destruct Hc).
    + rewrite forallb_forall in H. auto.
    + apply andb_prop in H. destruct Hc as [<-|[<-|[]]]; tauto.
    + destruct Hc as [<-|[]]; tauto.
    + destruct Hc as [<-|[]]; tauto.
    + destruct Hc as [<-|[]]; tauto.
    + destruct Hc as [<-|[]]; tauto.
Qed.

(** Functions of base R: [return] leaves, [stop] fails, all others may do anything. *)
Definition base_calls : call_sem := fun callee o =>
  forall f, unqualified callee f -> In f [lit "return"; lit "break"; lit "next"; lit "stop"] -> o <> Normal.

Lemma base_respects : respects [lit "stop"] base_calls.
Proof. intros callee f Hu Hin H. now apply (H f Hu Hin). Qed.

(** The body of
[[
function(x) { for (i in x) { u; break; v }; if (x) { return(1); w } else stop(); y }
]] *)
Definition ex_u := Simple (Rg 29 30).
Definition ex_break := Break (Rg 32 37).
Definition ex_v := Simple (Rg 39 40).
Definition ex_loop := For (Rg 14 42) (Block (Rg 27 42) [ex_u; ex_break; ex_v]).
Definition ex_ret := Call (Rg 53 62) (lit "return").
Definition ex_w := Simple (Rg 64 65).
Definition ex_stop := Call (Rg 73 79) (lit "stop").
Definition ex_if := If (Rg 44 79) COther (Block (Rg 51 67) [ex_ret; ex_w]) (Some ex_stop).
Definition ex_y := Simple (Rg 81 82).
Definition ex_body := Block (Rg 12 84) [ex_loop; ex_if; ex_y].

Lemma ex_executed : executed base_calls ex_body ex_stop.
Proof.
  exists [FSeq [ex_y]]. unfold ex_body, ex_loop, ex_if.
  eapply steps_step; [|apply st_if_false; exact (ev_other F)].
  eapply steps_step; [|apply st_seq].
  eapply steps_step; [|apply st_loop_break].
  eapply steps_step; [|apply st_seq_leave; discriminate].
  eapply steps_step; [|apply st_break].
  eapply steps_step; [|apply st_seq].
  eapply steps_step; [|apply st_simple].
  eapply steps_step; [|apply st_seq].
  eapply steps_step; [|apply st_block].
  eapply steps_step; [|apply st_for_body].
  eapply steps_step; [|apply st_seq].
  eapply steps_step; [|apply st_block].
  apply steps_refl.
Qed.

(** [function() { return; y }]: the word [return] without parentheses is a lookup. *)
Definition bare_body := Block (Rg 11 24) [Return (Rg 13 19); Simple (Rg 21 22)].

Lemma bare_executed cs : executed cs bare_body (Simple (Rg 21 22)).
Proof.
  exists [FSeq []]. unfold bare_body.
  eapply steps_step; [|apply st_seq].
  eapply steps_step; [|apply st_return].
  eapply steps_step; [|apply st_seq].
  eapply steps_step; [|apply st_block].
  apply steps_refl.
Qed.

(** A checker for [no_constant_if], sufficient. *)
Fixpoint openb (s : stmt) : bool :=
  match s with
  | If _ COther t (Some e) => openb t && openb e
  | If _ COther t None => openb t
  | If _ _ _ _ => false
  | Block _ l => forallb openb l
  | For _ b | While _ _ b | Repeat _ b => openb b
  | _ => true
  end.
Lemma openb_ok s : openb s = true -> no_constant_if s.
Proof.
  intros H r c t e D. remember (If r c t e) as q eqn:E. revert H. induction D as [s|s k n Hc D IH]; intros H.
  - subst. destruct c; try discriminate. split; constructor.
  - apply IH; auto. destruct s as [| | | | |r0 l|r0 c' t' [e'|]|r0 b|r0 c' b|r0 b]; cbn [openb children] in *; try (now destruct Hc).
    + rewrite forallb_forall in H. auto.
    + destruct c'; try discriminate. apply andb_prop in H. destruct Hc as [<-|[<-|[]]]; tauto.
    + destruct c'; try discriminate. destruct Hc as [<-|[]]; tauto.
    + destruct Hc as [<-|[]]; tauto.
    + destruct Hc as [<-|[]]; tauto.
    + destruct Hc as [<-|[]]; tauto.
Qed.

(** [function() { if (TRUE) return(1); repeat { x; if (c) next; y } }] *)
Definition next_body := Block (Rg 11 63)
  [If (Rg 13 32) CTrue (Call (Rg 23 32) (lit "return")) None;
   Repeat (Rg 34 61) (Block (Rg 41 61) [Simple (Rg 43 44); If (Rg 46 57) COther (Next (Rg 53 57)) None; Simple (Rg 59 60)])].
(** [function() { while (c) { if (a) break else next; x } }] *)
Definition both_body := Block (Rg 11 54)
  [While (Rg 13 52) COther (Block (Rg 23 52)
    [If (Rg 25 47) COther (Break (Rg 32 37)) (Some (Next (Rg 43 47))); Simple (Rg 49 50)])].
(** [function() { if (c) { for (i in x) y; return(1) } else return(2); z }] *)
Definition loop_body := Block (Rg 11 70)
  [If (Rg 13 65) COther (Block (Rg 20 50) [For (Rg 22 37) (Simple (Rg 36 37)); Call (Rg 39 48) (lit "return")])
     (Some (Call (Rg 56 65) (lit "return")));
   Simple (Rg 67 68)].
(** [function() { if (a) { if (b) return(1) else stop() } else return(2); x }] *)
Definition nested_body := Block (Rg 11 73)
  [If (Rg 13 68) COther
     (Block (Rg 20 53) [If (Rg 22 51) COther (Call (Rg 29 38) (lit "return")) (Some (Call (Rg 44 50) (lit "stop")))])
     (Some (Call (Rg 59 68) (lit "return")));
   Simple (Rg 70 71)].

Fixpoint all_desc (s : stmt) : list stmt :=
  s :: match s with
       | Block _ l => flat_map all_desc l
       | If _ _ t (Some e) => all_desc t ++ all_desc e
       | If _ _ t None => all_desc t
       | For _ b | While _ _ b | Repeat _ b => all_desc b
       | _ => []
       end.
Lemma desc_all s d : descendant s d -> In d (all_desc s).
Proof.
  induction 1 as [s|s c n Hc D IH]; [destruct s; now left|].
  destruct s as [| | | | |r0 l|r0 c' t' [e'|]|r0 b|r0 c' b|r0 b]; cbn [all_desc children] in *; try (now destruct Hc); right.
  - apply in_flat_map. eauto.
  - apply in_or_app. destruct Hc as [<-|[<-|[]]]; auto.
  - destruct Hc as [<-|[]]; auto.
  - destruct Hc as [<-|[]]; auto.
  - destruct Hc as [<-|[]]; auto.
  - destruct Hc as [<-|[]]; auto.
Qed.
