From Coq Require Import DecimalFacts DecimalN.
From Verif Require Import Model.Text Model.Base Model.Description Model.Output Model.Json Spec.JsonSpec.
From Verif Require Import Proofs.TextProofs Proofs.SplitProofs Proofs.OutputProofs.

(** ** Induction *)
Section Ind.
Variable P : json -> Prop.
Hypothesis Hnull : P JNull.
Hypothesis Hbool : forall b, P (JBool b).
Hypothesis Hnum : forall n, P (JNum n).
Hypothesis Hstr : forall t, P (JStr t).
Hypothesis Harr : forall l, Forall P l -> P (JArr l).
Hypothesis Hobj : forall l, Forall (fun p => P (snd p)) l -> P (JObj l).
Fixpoint json_ind2 (v : json) : P v :=
  match v with
  | JNull => Hnull
  | JBool b => Hbool b
  | JNum n => Hnum n
  | JStr t => Hstr t
  | JArr l => Harr l ((fix go l := match l return Forall P l with [] => Forall_nil _ | x :: r => Forall_cons _ (json_ind2 x) (go r) end) l)
  | JObj l => Hobj l ((fix go l := match l return Forall (fun p => P (snd p)) l with [] => Forall_nil _ | x :: r => Forall_cons _ (json_ind2 (snd x)) (go r) end) l)
  end.
End Ind.

(** ** Strings *)
Lemma small_char c : (c < 32)%N -> In c (map N.of_nat (seq 0 32)).
Proof. intros H. apply in_map_iff. exists (N.to_nat c). split; [lia|]. apply in_seq. lia. Qed.
Lemma string_escape c r : string_rest (escape c ++ r) = push c (string_rest r).
Proof.
  destruct (c <? 32)%N eqn:S.
  - apply N.ltb_lt in S. apply small_char in S. cbv [map seq N.of_nat Pos.of_succ_nat Pos.succ] in S.
    repeat (destruct S as [<-|S]; [reflexivity|]). destruct S.
  - unfold escape. rewrite S. apply N.ltb_ge in S.
    destruct (c =? 34)%N eqn:E1; [apply N.eqb_eq in E1; subst c; reflexivity|].
    destruct (c =? 92)%N eqn:E2; [apply N.eqb_eq in E2; subst c; reflexivity|].
    assert (N : forall m, (m < 32)%N -> (c =? m)%N = false) by (intros m M; apply N.eqb_neq; lia).
    rewrite !N by lia. cbn [app]. cbn [string_rest]. rewrite E1, E2.
    replace (c <? 32)%N with false by (symmetry; apply N.ltb_ge; lia). reflexivity.
Qed.
Lemma string_quoted t r : string_rest (flat_map escape t ++ 34%N :: r) = Some (t, r).
Proof.
  induction t as [|c t IH]; cbn [flat_map]; [reflexivity|]. rewrite <- app_assoc, string_escape, IH. reflexivity.
Qed.

(** ** Numbers *)
Definition ends_number (r : text) : Prop :=
  match r with [] => True | c :: _ => is_digit c = false /\ c <> 46%N /\ c <> 101%N /\ c <> 69%N end.
Lemma is_digit_iff c : is_digit c = true <-> (48 <= c <= 57)%N.
Proof. unfold is_digit. rewrite Bool.andb_true_iff, !N.leb_le. reflexivity. Qed.
Lemma digits_app d r : (forall c, In c d -> (48 <= c <= 57)%N) -> ends_number r -> digits (d ++ r) = (d, r).
Proof.
  induction d as [|c d IH]; intros H R; cbn [app].
  - destruct r as [|c r]; auto. cbn [digits]. destruct R as (-> & _). reflexivity.
  - cbn [digits]. replace (is_digit c) with true by (symmetry; apply is_digit_iff; apply H; now left).
    rewrite IH; auto. intros x I. apply H. now right.
Qed.
Lemma decimal_first n : decimal n = [48%N] \/ exists c d, decimal n = c :: d /\ c <> 48%N.
Proof.
  unfold decimal. destruct (N.to_uint (N.of_nat n)) as [|u|u|u|u|u|u|u|u|u|u] eqn:E.
  - exfalso. revert E. destruct (N.of_nat n); cbn; [discriminate|]. apply DecimalPos.Unsigned.to_uint_nonnil.
  - left. assert (X : Decimal.D0 u = Decimal.unorm (Decimal.D0 u)).
    { rewrite <- (DecimalN.Unsigned.to_of (Decimal.D0 u)), <- E at 1. rewrite <- (DecimalN.Unsigned.of_to (N.of_nat n)) at 1. rewrite E. reflexivity. }
    unfold Decimal.unorm in X. cbn [Decimal.nzhead] in X. pose proof (nzhead_nonzero u) as Z.
    destruct (Decimal.nzhead u) as [|w|w|w|w|w|w|w|w|w|w]; try discriminate.
    + injection X as ->. reflexivity.
    + exfalso. now apply (Z w).
  - right. eexists _, _. split; [reflexivity|vm_compute; discriminate].
  - right. eexists _, _. split; [reflexivity|vm_compute; discriminate].
  - right. eexists _, _. split; [reflexivity|vm_compute; discriminate].
  - right. eexists _, _. split; [reflexivity|vm_compute; discriminate].
  - right. eexists _, _. split; [reflexivity|vm_compute; discriminate].
  - right. eexists _, _. split; [reflexivity|vm_compute; discriminate].
  - right. eexists _, _. split; [reflexivity|vm_compute; discriminate].
  - right. eexists _, _. split; [reflexivity|vm_compute; discriminate].
  - right. eexists _, _. split; [reflexivity|vm_compute; discriminate].
Qed.
Lemma digits_val_fold d a v : digits_val a d = Some v -> fold_left (fun v x => 10 * v + (x - 48))%N d a = v.
Proof.
  revert a. induction d as [|c d IH]; intros a; cbn [digits_val fold_left].
  - now intros [= ->].
  - unfold digit. destruct ((48 <=? c) && (c <=? 57))%N%bool; [|discriminate]. apply IH.
Qed.
Lemma decimal_value n : fold_left (fun v x => 10 * v + (x - 48))%N (decimal n) 0%N = N.of_nat n.
Proof.
  apply digits_val_fold. unfold decimal. rewrite digits_val_show, DecimalN.Unsigned.of_to. reflexivity.
Qed.
Lemma number_decimal n r : ends_number r -> number (decimal n ++ r) = Some (JNum n, r).
Proof.
  intros R. unfold number. rewrite digits_app; auto; [|apply decimal_digits].
  pose proof (decimal_value n) as V.
  assert (Z : (match decimal n with c :: d => ((c =? 48)%N && negb (match d with [] => true | _ => false end))%bool | [] => false end) = false).
  { destruct (decimal_first n) as [->|(c & d & -> & H)]; [reflexivity|]. apply N.eqb_neq in H. now rewrite H. }
  destruct (decimal n) as [|c d] eqn:E; [now apply decimal_nonempty in E|].
  rewrite Z, V, Nat2N.id. destruct r as [|x r]; auto.
  destruct R as (_ & A & B & C). apply N.eqb_neq in A, B, C. now rewrite A, B, C.
Qed.

(** ** Values *)
Lemma skip_indent k t : skip_white (indent k ++ t) = skip_white t.
Proof. unfold indent. induction (2 * k) as [|n IH]; auto. Qed.
Lemma skip_nl t : skip_white (nl :: t) = skip_white t. Proof. reflexivity. Qed.
Lemma skip_twice t : skip_white (skip_white t) = skip_white t.
Proof. induction t as [|c t IH]; auto. cbn [skip_white]. destruct (white c) eqn:E; auto. cbn [skip_white]. now rewrite E. Qed.
Lemma value_skip n t t' : skip_white t = skip_white t' -> value n t = value n t'.
Proof. intros E. destruct n; auto. cbn [value]. now rewrite E. Qed.
Lemma elements_skip n t t' : skip_white t = skip_white t' -> elements n t = elements n t'.
Proof. intros E. destruct n; auto. cbn [elements]. now rewrite (value_skip n t t' E). Qed.
Lemma members_skip n t t' : skip_white t = skip_white t' -> members n t = members n t'.
Proof. intros E. destruct n; auto. cbn [members]. now rewrite E. Qed.

Definition solid (c : char) : Prop := white c = false /\ c <> 93%N /\ c <> 125%N.
Lemma pretty_head k v : exists c r, pretty k v = c :: r /\ solid c.
Proof.
  assert (S : forall c r, solid c -> exists c' r', c :: r = c' :: r' /\ solid c') by eauto.
  destruct v as [| [|] |n|t|[|x r]|[|[m x] r]]; try (apply S; repeat split; vm_compute; try discriminate; reflexivity).
  cbn [pretty]. destruct (decimal n) as [|c r] eqn:E; [now apply decimal_nonempty in E|].
  exists c, r. split; auto. pose proof (decimal_digits n c) as H. rewrite E in H. specialize (H (or_introl eq_refl)).
  repeat split; try lia. unfold white. repeat rewrite (proj2 (N.eqb_neq _ _)) by lia. reflexivity.
Qed.

Fixpoint cost (v : json) : nat :=
  match v with
  | JArr l => S (list_sum (map (fun x => S (cost x)) l))
  | JObj l => S (list_sum (map (fun p => S (cost (snd p))) l))
  | _ => 1
  end.
Lemma quote_head t r : quote t ++ r = 34%N :: (flat_map escape t ++ 34%N :: r).
Proof. unfold quote. cbn [app]. now rewrite <- app_assoc. Qed.

Definition reads_well (v : json) : Prop := forall k n r, cost v <= n -> ends_number r -> value n (pretty k v ++ r) = Some (v, r).
Lemma ends_nl r : ends_number (nl :: r). Proof. repeat split; discriminate. Qed.
Lemma ends_comma r : ends_number (44%N :: r). Proof. repeat split; discriminate. Qed.

Lemma elements_read k : forall r x n s, Forall reads_well (x :: r) ->
  list_sum (map (fun x => S (cost x)) (x :: r)) <= n ->
  elements n (pretty (S k) x ++ flat_map (fun y => lit "," ++ [nl] ++ indent (S k) ++ pretty (S k) y) r ++ nl :: (indent k ++ 93%N :: s)) = Some (x :: r, s).
Proof.
  induction r as [|y r IH]; intros x n s F C.
  - cbn [flat_map app]. destruct n as [|n]; [cbn in C; lia|]. cbn [elements]. cbn [map list_sum fold_right] in C.
    rewrite (Forall_inv F (S k) n) by (auto using ends_nl; lia).
    rewrite skip_nl, skip_indent. reflexivity.
  - destruct n as [|n]; [cbn in C; lia|]. cbn [elements]. cbn [map list_sum fold_right] in C.
    change (flat_map (fun y0 => lit "," ++ [nl] ++ indent (S k) ++ pretty (S k) y0) (y :: r))
      with ((44%N :: nl :: (indent (S k) ++ pretty (S k) y)) ++ flat_map (fun y0 => lit "," ++ [nl] ++ indent (S k) ++ pretty (S k) y0) r).
    set (tl := flat_map (fun y0 => lit "," ++ [nl] ++ indent (S k) ++ pretty (S k) y0) r) in *.
    cbn [app].
    rewrite (Forall_inv F (S k) n) by (auto using ends_comma; lia).
    cbn [skip_white]. change (white 44%N) with false. cbn iota. change (44 =? 93)%N with false. change (44 =? 44)%N with true. cbn iota.
    rewrite (elements_skip n _ (pretty (S k) y ++ tl ++ nl :: (indent k ++ 93%N :: s))).
    + rewrite (IH y n s); auto; [now apply Forall_inv_tail in F|]. cbn [map list_sum fold_right]. lia.
    + rewrite skip_nl, <- !app_assoc, skip_indent. reflexivity.
Qed.
Definition member_text (k : nat) (p : text * json) : text := quote (fst p) ++ lit ": " ++ pretty (S k) (snd p).
Definition more_members (k : nat) (r : list (text * json)) : text :=
  flat_map (fun p => lit "," ++ [nl] ++ indent (S k) ++ quote (fst p) ++ lit ": " ++ pretty (S k) (snd p)) r.
Lemma members_read k : forall r p n s, Forall (fun p => reads_well (snd p)) (p :: r) ->
  list_sum (map (fun p => S (cost (snd p))) (p :: r)) <= n ->
  members n (member_text k p ++ more_members k r ++ nl :: (indent k ++ 125%N :: s)) = Some (p :: r, s).
Proof.
  induction r as [|q r IH]; intros [m x] n s F C.
  - destruct n as [|n]; [cbn in C; lia|]. cbn [map list_sum fold_right snd] in C.
    unfold member_text, more_members. cbn [fst snd flat_map app]. rewrite <- !app_assoc, quote_head.
    cbn [members skip_white]. change (white 34%N) with false. cbn iota. change (34 =? 34)%N with true. cbn iota.
    rewrite string_quoted. cbn [app]. change (skip_white (lit ": " ++ pretty (S k) x ++ nl :: (indent k ++ 125%N :: s))) with (58%N :: 32%N :: pretty (S k) x ++ nl :: (indent k ++ 125%N :: s)).
    change (58 =? 58)%N with true. cbn iota.
    rewrite (value_skip n _ (pretty (S k) x ++ nl :: (indent k ++ 125%N :: s))) by reflexivity.
    pose proof (Forall_inv F) as V. cbn [snd] in V. rewrite (V (S k) n) by (auto using ends_nl; lia).
    rewrite skip_nl, skip_indent. reflexivity.
  - destruct n as [|n]; [cbn in C; lia|]. cbn [map list_sum fold_right snd] in C.
    replace (more_members k (q :: r)) with (44%N :: nl :: (indent (S k) ++ member_text k q) ++ more_members k r)
      by (unfold more_members, member_text; cbn [flat_map]; rewrite <- !app_assoc; reflexivity).
    unfold member_text at 1. cbn [fst snd app]. rewrite <- !app_assoc, quote_head.
    cbn [members skip_white]. change (white 34%N) with false. cbn iota. change (34 =? 34)%N with true. cbn iota.
    rewrite string_quoted. 
    set (tl := more_members k r ++ nl :: (indent k ++ 125%N :: s)) in *.
    change (skip_white (lit ": " ++ pretty (S k) x ++ 44%N :: nl :: (indent (S k) ++ member_text k q ++ tl))) with (58%N :: 32%N :: pretty (S k) x ++ 44%N :: nl :: (indent (S k) ++ member_text k q ++ tl)).
    change (58 =? 58)%N with true. cbn iota.
    rewrite (value_skip n _ (pretty (S k) x ++ 44%N :: nl :: (indent (S k) ++ member_text k q ++ tl))) by reflexivity.
    pose proof (Forall_inv F) as V. cbn [snd] in V. rewrite (V (S k) n) by (auto using ends_comma; lia).
    cbn [skip_white]. change (white 44%N) with false. cbn iota. change (44 =? 125)%N with false. change (44 =? 44)%N with true. cbn iota.
    rewrite (members_skip n _ (member_text k q ++ tl)) by (rewrite skip_nl, skip_indent; reflexivity).
    unfold tl. rewrite (IH q n s); auto; [now apply Forall_inv_tail in F|]. cbn [map list_sum fold_right]. lia.
Qed.
Lemma all_read v : reads_well v.
Proof.
  induction v using json_ind2; intros k n0 r C R; (destruct n0 as [|n0]; [cbn in C; lia|]).
  - reflexivity.
  - destruct b; reflexivity.
  - cbn [pretty]. pose proof (number_decimal n r R) as V.
    destruct (decimal n) as [|c d] eqn:E; [now apply decimal_nonempty in E|].
    pose proof (decimal_digits n c) as H. rewrite E in H. specialize (H (or_introl eq_refl)).
    cbn [app] in *. cbn [value skip_white].
    replace (white c) with false by (symmetry; unfold white; repeat rewrite (proj2 (N.eqb_neq _ _)) by lia; reflexivity).
    repeat rewrite (proj2 (N.eqb_neq c _)) by lia.
    assert (S : forall x p, (57 < x)%N -> strip_prefix (x :: p) (c :: d ++ r) = None).
    { intros x p X. cbn [strip_prefix]. now rewrite (proj2 (N.eqb_neq x c)) by lia. }
    unfold lit. rewrite !S by (vm_compute; reflexivity). exact V.
  - cbn [pretty]. rewrite quote_head. cbn [value skip_white]. change (white 34%N) with false. cbn iota. change (34 =? 34)%N with true. cbn iota.
    now rewrite string_quoted.
  - destruct l as [|x l]; [reflexivity|].
    cbn [pretty]. cbn [cost] in C.
    set (tl := flat_map (fun y => lit "," ++ [nl] ++ indent (S k) ++ pretty (S k) y) l).
    assert (A : (lit "[" ++ [nl] ++ indent (S k) ++ pretty (S k) x ++ tl ++ [nl] ++ indent k ++ lit "]") ++ r =
                91%N :: nl :: (indent (S k) ++ pretty (S k) x ++ tl ++ nl :: (indent k ++ 93%N :: r))).
    { rewrite <- !app_assoc. reflexivity. }
    rewrite A. clear A. cbn [value]. 
    change (skip_white (91%N :: nl :: (indent (S k) ++ pretty (S k) x ++ tl ++ nl :: (indent k ++ 93%N :: r)))) with (91%N :: nl :: (indent (S k) ++ pretty (S k) x ++ tl ++ nl :: (indent k ++ 93%N :: r))).
    cbn iota. change (91 =? 34)%N with false. change (91 =? 91)%N with true. cbn iota.
    rewrite (elements_skip n0 _ (pretty (S k) x ++ tl ++ nl :: (indent k ++ 93%N :: r))) by (rewrite skip_nl, skip_indent; reflexivity).
    unfold tl. rewrite (elements_read k l x n0 r); [|auto|lia].
    rewrite skip_nl, skip_indent. destruct (pretty_head (S k) x) as (c & d & E & (W & B & _)). rewrite E. cbn [app skip_white].
    rewrite W. apply N.eqb_neq in B. now rewrite B.
  - destruct l as [|[m x] l]; [reflexivity|].
    cbn [pretty]. cbn [cost] in C. fold (more_members k l).
    assert (A : (lit "{" ++ [nl] ++ indent (S k) ++ quote m ++ lit ": " ++ pretty (S k) x ++ more_members k l ++ [nl] ++ indent k ++ lit "}") ++ r =
                123%N :: nl :: (indent (S k) ++ member_text k (m, x) ++ more_members k l ++ nl :: (indent k ++ 125%N :: r))).
    { unfold member_text. rewrite <- !app_assoc. reflexivity. }
    rewrite A. clear A. cbn [value].
    change (skip_white (123%N :: nl :: (indent (S k) ++ member_text k (m, x) ++ more_members k l ++ nl :: (indent k ++ 125%N :: r)))) with
      (123%N :: nl :: (indent (S k) ++ member_text k (m, x) ++ more_members k l ++ nl :: (indent k ++ 125%N :: r))).
    cbn iota. change (123 =? 34)%N with false. change (123 =? 91)%N with false. change (123 =? 123)%N with true. cbn iota.
    rewrite (members_skip n0 _ (member_text k (m, x) ++ more_members k l ++ nl :: (indent k ++ 125%N :: r))) by (rewrite skip_nl, skip_indent; reflexivity).
    rewrite (members_read k l (m, x) n0 r); [|auto|lia].
    rewrite skip_nl, skip_indent. unfold member_text at 1. rewrite <- app_assoc, quote_head. reflexivity.
Qed.
Lemma cost_le v : forall k, cost v <= 2 * length (pretty k v).
Proof.
  assert (Q : forall t, 2 <= length (quote t)) by (intros t; unfold quote; rewrite !app_length; cbn; lia).
  induction v using json_ind2; intros k; cbn [cost].
  - cbn. lia.
  - destruct b; cbn; lia.
  - cbn [pretty]. destruct (decimal n) as [|c d] eqn:E; [now apply decimal_nonempty in E|]. cbn. lia.
  - cbn [pretty]. specialize (Q t). lia.
  - destruct l as [|x l]; [cbn; lia|]. cbn [pretty map list_sum fold_right]. rewrite !app_length.
    pose proof (Forall_inv H (S k)) as X. apply Forall_inv_tail in H.
    assert (T : list_sum (map (fun x => S (cost x)) l) <= 2 * length (flat_map (fun y => lit "," ++ [nl] ++ indent (S k) ++ pretty (S k) y) l)).
    { clear X. induction l as [|y l IH]; [cbn; lia|]. cbn [map flat_map]. rewrite app_length, !app_length. change (list_sum (S (cost y) :: map (fun x => S (cost x)) l)) with (S (cost y) + list_sum (map (fun x => S (cost x)) l)).
      pose proof (Forall_inv H (S k)). specialize (IH (Forall_inv_tail H)). cbn [lit length] in *. lia. }
    change (fold_right Init.Nat.add 0 (map (fun x => S (cost x)) l)) with (list_sum (map (fun x => S (cost x)) l)).
    cbn [lit length] in *. lia.
  - destruct l as [|[m x] l]; [cbn; lia|]. cbn [pretty map list_sum fold_right snd]. rewrite !app_length.
    pose proof (Forall_inv H (S k)) as X. cbn [snd] in X. apply Forall_inv_tail in H.
    assert (T : list_sum (map (fun p => S (cost (snd p))) l) <= 2 * length (more_members k l)).
    { clear X. unfold more_members. induction l as [|y l IH]; [cbn; lia|]. cbn [map flat_map]. rewrite app_length, !app_length.
      change (list_sum (S (cost (snd y)) :: map (fun p => S (cost (snd p))) l)) with (S (cost (snd y)) + list_sum (map (fun p => S (cost (snd p))) l)).
      pose proof (Forall_inv H (S k)). specialize (IH (Forall_inv_tail H)). cbn [lit length] in *. lia. }
    fold (more_members k l).
    change (fold_right Init.Nat.add 0 (map (fun p => S (cost (snd p))) l)) with (list_sum (map (fun p => S (cost (snd p))) l)).
    cbn [lit length] in *. lia.
Qed.
Lemma read_pretty v : read_json (pretty 0 v) = Some v.
Proof.
  assert (R : value (2 * length (pretty 0 v) + 2) (pretty 0 v) = Some (v, [])).
  { rewrite <- (app_nil_r (pretty 0 v)) at 2. apply all_read; [|exact Logic.I]. pose proof (cost_le v 0). lia. }
  unfold read_json. unfold text, char in *. rewrite R. reflexivity.
Qed.
Lemma diag_shown d : shows (diag_json d) d.
Proof.
  unfold shows, diag_json. repeat split; try reflexivity.
  destruct (j_location d) as [(r & c)|]; [split|]; reflexivity.
Qed.
