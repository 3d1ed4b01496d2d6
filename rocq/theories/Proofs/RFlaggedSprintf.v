(** sprintf(): the scan of a format finds its specifiers, and only them. *)
From Verif Require Import Spec.RFlagged Proofs.TextProofs Proofs.RulesProofs Proofs.RStopsProofs Proofs.LintConstant Proofs.RFlaggedProofs
  Proofs.RFlaggedCompare Proofs.RFlaggedCalls Proofs.RFlaggedMore Proofs.RFlaggedTestthat.

(** ** The pieces of a specifier *)
Definition read_position (t : text) : option N * text :=
  let (ds, u) := take_digits t in
  match u with
  | d :: u' =>
      if ceqb d 36%N then
        match ds with
        | [] => (None, t)
        | _ => if (number ds <? position_limit)%N then (Some (number ds), u') else (None, u)
        end
      else (None, t)
  | [] => (None, t)
  end.
Definition read_precision (t : text) : nat * text :=
  match t with
  | c :: t' => if ceqb c 46%N then star_or_digits t' else (0, t)
  | [] => (0, [])
  end.
Definition placed (acc : format) (v : option N) : format :=
  match v with
  | Some x => mk_format (specs acc) (invalid acc) true (N.max (max_position acc) x) (constant acc)
  | None => acc
  end.
Definition add_spec (acc : format) (k : nat) : format :=
  mk_format (specs acc ++ [k]) (invalid acc) (positional acc) (max_position acc) (constant acc).
Definition spoiled (acc : format) : format :=
  mk_format (specs acc) true (positional acc) (max_position acc) (constant acc).
Definition add_text (acc : format) (k : text) : format :=
  mk_format (specs acc) (invalid acc) (positional acc) (max_position acc) (constant acc ++ k).
Lemma scan_char : forall n c t acc, c <> 37%N -> scan_format (S n) (c :: t) acc = scan_format n t (add_text acc [c]).
Proof. intros n c t acc H. cbn [scan_format]. unfold ceqb. rewrite (proj2 (N.eqb_neq c 37%N) H). reflexivity. Qed.
Lemma scan_percent : forall n t t1 acc, skip_while is_ws t = 37%N :: t1 ->
  scan_format (S n) (37%N :: t) acc = scan_format n t1 (add_text acc [37%N]).
Proof. intros n t t1 acc H. cbn [scan_format]. change (negb (ceqb 37%N 37%N)) with false. cbv iota. rewrite H. reflexivity. Qed.
Lemma scan_nothing : forall n t acc, skip_while is_ws t = [] -> scan_format (S n) (37%N :: t) acc = scan_format n [] (spoiled acc).
Proof. intros n t acc H. cbn [scan_format]. change (negb (ceqb 37%N 37%N)) with false. cbv iota. rewrite H. reflexivity. Qed.
Ltac ending t3 := destruct t3 as [|c0 t']; [reflexivity|]; destruct (ceqb c0 46%N); [destruct (star_or_digits t') as [p [|d4 t4]]; reflexivity|reflexivity].
Lemma scan_spec : forall n t c t1 acc, skip_while is_ws t = c :: t1 -> c <> 37%N ->
  scan_format (S n) (37%N :: t) acc =
  let (v, t2) := read_position (c :: t1) in
  let (w, t3) := star_or_digits (skip_while is_flag t2) in
  let (p, t4) := read_precision t3 in
  match t4 with
  | d :: t5 => if existsb (ceqb d) type_chars then scan_format n t5 (add_spec (placed acc v) (1 + w + p)) else scan_format n t4 (spoiled (placed acc v))
  | [] => scan_format n [] (spoiled (placed acc v))
  end.
Proof.
  intros n t c t1 acc H Hc. cbn [scan_format]. change (negb (ceqb 37%N 37%N)) with false. cbv iota. rewrite H.
  unfold ceqb at 1. rewrite (proj2 (N.eqb_neq c 37%N) Hc). unfold read_position, read_precision.
  destruct (take_digits (c :: t1)) as [ds u] eqn:T.
  assert (E : c :: t1 = ds ++ u) by (apply (take_digits_spec _ _ _ T)).
  destruct u as [|d u'].
  - cbn [placed]. destruct (star_or_digits (skip_while is_flag (c :: t1))) as [w t3]. ending t3.
  - destruct (ceqb d 36%N) eqn:D.
    + destruct ds as [|d0 ds].
      * cbn [app] in E. rewrite <- E.
        destruct (star_or_digits (skip_while is_flag (c :: t1))) as [w t3]. ending t3.
      * destruct (number (d0 :: ds) <? position_limit)%N.
        -- destruct (star_or_digits (skip_while is_flag u')) as [w t3]. ending t3.
        -- destruct (star_or_digits (skip_while is_flag (d :: u'))) as [w t3]. ending t3.
    + destruct (star_or_digits (skip_while is_flag (c :: t1))) as [w t3]. ending t3.
Qed.

(** ** Reading *)
Lemma skip_while_spec : forall k t, exists a, t = a ++ skip_while k t /\ Forall (fun c => k c = true) a.
Proof.
  intros k t. induction t as [|c t (a & E & H)]; [exists []; split; [reflexivity|constructor]|].
  cbn [skip_while]. destruct (k c) eqn:K; [exists (c :: a); split; [cbn [app]; congruence|constructor; auto]|exists []; split; [reflexivity|constructor]].
Qed.
Lemma skip_while_app : forall k a t, Forall (fun c => k c = true) a -> skip_while k (a ++ t) = skip_while k t.
Proof. intros k a t H. induction H as [|c a Hc H IH]; [reflexivity|]. cbn [app skip_while]. rewrite Hc. exact IH. Qed.
Lemma skip_while_stop : forall k c t, k c = false -> skip_while k (c :: t) = c :: t.
Proof. intros k c t H. cbn [skip_while]. rewrite H. reflexivity. Qed.
Lemma skip_while_len : forall k t, length (skip_while k t) <= length t.
Proof. intros k t. destruct (skip_while_spec k t) as (a & E & _). rewrite E at 2. rewrite app_length. lia. Qed.
Lemma flag_iff : forall c, is_flag c = true <-> In c (lit "-+ #0").
Proof.
  intro c. unfold is_flag, ceqb. rewrite !Bool.orb_true_iff, !N.eqb_eq.
  change (lit "-+ #0") with [45; 43; 32; 35; 48]%N. cbn [In]. intuition congruence.
Qed.
Lemma flags_iff : forall f, Forall (fun x => In x (lit "-+ #0")) f <-> Forall (fun c => is_flag c = true) f.
Proof. intro f. rewrite !Forall_forall. split; intros H x Hx; apply flag_iff, H, Hx. Qed.
Lemma digits_flag : forall a, Forall digit a -> Forall (fun c => is_digit c = true) a.
Proof. intros a H. eapply Forall_impl; [|exact H]. intros c Hc. apply is_digit_iff, Hc. Qed.
Lemma flag_digits : forall a, Forall (fun c => is_digit c = true) a -> Forall digit a.
Proof. intros a H. eapply Forall_impl; [|exact H]. intros c Hc. apply is_digit_iff, Hc. Qed.
Lemma type_iff : forall c, existsb (ceqb c) type_chars = true <-> In c (lit "dioxXfeEgGaAs").
Proof.
  intro c. change type_chars with (lit "dioxXfeEgGaAs"). rewrite existsb_exists. split.
  - intros (d & Hd & E). apply N.eqb_eq in E. subst d. exact Hd.
  - intro H. exists c. split; [exact H|apply N.eqb_refl].
Qed.
(** None of the characters that come before the type of a specifier. *)
Lemma type_plain : forall c, In c (lit "dioxXfeEgGaAs") ->
  is_digit c = false /\ is_flag c = false /\ is_ws c = false /\ ceqb c 42%N = false /\ ceqb c 46%N = false /\ ceqb c 36%N = false /\ c <> 37%N.
Proof.
  intros c H. change (lit "dioxXfeEgGaAs") with [100; 105; 111; 120; 88; 102; 101; 69; 103; 71; 97; 65; 115]%N in H. cbn [In] in H.
  repeat (destruct H as [<-|H]; [repeat split; discriminate|]). destruct H.
Qed.
Lemma star_sound : forall t i r, star_or_digits t = (i, r) -> exists a, t = a ++ r /\ amount a i.
Proof.
  intros [|c t] i r H; cbn [star_or_digits] in H.
  - injection H as <- <-. exists []. split; [reflexivity|]. constructor. constructor.
  - destruct (ceqb c 42%N) eqn:E.
    + injection H as <- <-. apply N.eqb_eq in E. subst c. exists (lit "*"). split; [reflexivity|constructor].
    + assert (Hi : 0 = i) by congruence. assert (Hr : skip_while is_digit (c :: t) = r) by congruence. subst i r.
      destruct (skip_while_spec is_digit (c :: t)) as (a & Ea & Ha). exists a. split; [exact Ea|]. constructor. apply flag_digits, Ha.
Qed.
Lemma precision_sound : forall t i r, read_precision t = (i, r) -> exists q, t = q ++ r /\ precision q i.
Proof.
  intros [|c t] i r H; cbn [read_precision] in H.
  - injection H as <- <-. exists []. split; [reflexivity|constructor].
  - destruct (ceqb c 46%N) eqn:E.
    + apply N.eqb_eq in E. subst c. apply star_sound in H. destruct H as (a & -> & Ha). exists (lit "." ++ a). split; [reflexivity|constructor; exact Ha].
    + injection H as <- <-. exists []. split; [reflexivity|constructor].
Qed.
(** What is left when a position cannot be read. *)
Lemma position_sound : forall t v r, read_position t = (v, r) ->
  (exists p, t = p ++ r /\ position p v) \/ exists u, r = 36%N :: u.
Proof.
  intros t v r H. unfold read_position in H. destruct (take_digits t) as [ds u] eqn:T. destruct (take_digits_spec _ _ _ T) as [E D].
  assert (N : (None, t) = (v, r) -> exists p, t = p ++ r /\ position p v).
  { intro K. injection K as <- <-. exists []. split; [reflexivity|constructor]. }
  destruct u as [|d u']; [left; apply N, H|]. destruct (ceqb d 36%N) eqn:Ed; [|left; apply N, H]. apply N.eqb_eq in Ed. subst d.
  destruct ds as [|d0 ds]; [left; apply N, H|].
  destruct (number (d0 :: ds) <? position_limit)%N eqn:L.
  - left. assert (Hv : Some (number (d0 :: ds)) = v) by congruence. assert (Hr : u' = r) by congruence. subst v r.
    exists ((d0 :: ds) ++ lit "$"). split; [rewrite <- app_assoc; exact E|]. constructor; [discriminate|apply stands_for_iff; auto|].
    apply N.ltb_lt in L. exact L.
  - right. injection H as _ <-. eauto.
Qed.

(** ** Invalid formats stay so *)
Lemma invalid_stays : forall n t acc, invalid acc = true -> invalid (scan_format n t acc) = true.
Proof.
  induction n as [|n IH]; intros t acc H; [exact H|]. destruct t as [|c t]; [exact H|].
  destruct (N.eq_dec c 37) as [->|Hc]; [|rewrite scan_char by exact Hc; apply IH; exact H].
  destruct (skip_while is_ws t) as [|c t1] eqn:E; [rewrite scan_nothing by exact E; apply IH; reflexivity|].
  destruct (N.eq_dec c 37) as [->|Hc]; [rewrite (scan_percent _ _ _ _ E); apply IH; exact H|].
  rewrite (scan_spec _ _ _ _ _ E Hc). destruct (read_position (c :: t1)) as [v t2].
  destruct (star_or_digits (skip_while is_flag t2)) as [w t3]. destruct (read_precision t3) as [p t4].
  assert (P : invalid (placed acc v) = true) by (destruct v; exact H).
  destruct t4 as [|d t5]; [apply IH; reflexivity|]. destruct (existsb (ceqb d) type_chars); apply IH; [exact P|reflexivity].
Qed.

(** ** Soundness *)
Lemma scan_sound : forall n t acc, length t <= n -> invalid (scan_format n t acc) = false -> exists l k, format_of t l k.
Proof.
  induction n as [|n IH]; intros t acc L H.
  - destruct t; [|cbn in L; lia]. exists [], []. constructor.
  - destruct t as [|c t]; [exists [], []; constructor|]. cbn [length] in L.
    destruct (N.eq_dec c 37) as [->|Hc].
    2:{ rewrite scan_char in H by exact Hc. destruct (IH t _ ltac:(lia) H) as (l & k & F). exists l, (c :: k). constructor; auto. }
    pose proof (skip_while_len is_ws t) as LW. destruct (skip_while_spec is_ws t) as (w & Ew & Fw).
    destruct (skip_while is_ws t) as [|c t1] eqn:E.
    { rewrite scan_nothing in H by exact E. rewrite invalid_stays in H by reflexivity. discriminate H. }
    cbn [length] in LW.
    destruct (N.eq_dec c 37) as [->|Hc].
    { rewrite (scan_percent _ _ _ _ E) in H. destruct (IH t1 _ ltac:(lia) H) as (l & k & F).
      exists l, (lit "%" ++ k). rewrite Ew. exact (format_percent w t1 l k Fw F). }
    rewrite (scan_spec _ _ _ _ _ E Hc) in H. destruct (read_position (c :: t1)) as [v t2] eqn:RP.
    destruct (star_or_digits (skip_while is_flag t2)) as [i t3] eqn:SD. destruct (read_precision t3) as [j t4] eqn:PR.
    destruct (skip_while_spec is_flag t2) as (f & Ef & Ff).
    destruct (star_sound _ _ _ SD) as (a & Ea & Ha). destruct (precision_sound _ _ _ PR) as (q & Eq & Hq).
    destruct t4 as [|d t5]; [rewrite invalid_stays in H by reflexivity; discriminate H|].
    destruct (existsb (ceqb d) type_chars) eqn:Ty; [|rewrite invalid_stays in H by reflexivity; discriminate H].
    apply type_iff in Ty.
    destruct (position_sound _ _ _ RP) as [(p & Ep & Hp)|(u & Eu)].
    + assert (ET : 37%N :: t = (lit "%" ++ w ++ p ++ f ++ a ++ q ++ [d]) ++ t5).
      { rewrite Ew, Ep, Ef, Ea, Eq. rewrite <- !app_assoc. reflexivity. }
      assert (L5 : length t5 <= n).
      { assert (Q := f_equal (@length char) ET). cbn [length] in Q. rewrite !app_length in Q. cbn [length] in Q. lia. }
      destruct (IH t5 _ L5 H) as (l & k & F). exists ((1 + i + j, v) :: l), k. refine (eq_ind_r (fun z => format_of z ((1 + i + j, v) :: l) k) _ ET). constructor; [|exact F].
      constructor; auto. apply flags_iff, Ff.
    + exfalso. subst t2. rewrite skip_while_stop in SD by reflexivity. cbn [star_or_digits] in SD. change (ceqb 36%N 42%N) with false in SD. cbv iota in SD.
      rewrite skip_while_stop in SD by reflexivity. injection SD as _ <-. cbn [read_precision] in PR. change (ceqb 36%N 46%N) with false in PR. cbv iota in PR.
      injection PR as _ <- _. revert Ty. change (lit "dioxXfeEgGaAs") with [100; 105; 111; 120; 88; 102; 101; 69; 103; 71; 97; 65; 115]%N. cbn [In].
      intros Ty. repeat (destruct Ty as [Ty|Ty]; [discriminate Ty|]). destruct Ty.
Qed.

(** ** Completeness *)
Lemma star_read : forall a i r, amount a i -> (forall c u, r = c :: u -> is_digit c = false /\ ceqb c 42%N = false) ->
  star_or_digits (a ++ r) = (i, r).
Proof.
  intros a i r H Hr. destruct H as [|d Hd]; [reflexivity|].
  assert (K : skip_while is_digit (d ++ r) = r).
  { rewrite skip_while_app by (apply digits_flag, Hd). destruct r as [|c u]; [reflexivity|]. apply skip_while_stop. apply (Hr c u eq_refl). }
  destruct (d ++ r) as [|c t] eqn:E; [destruct d; [cbn in E; subst r; reflexivity|discriminate E]|].
  cbn [star_or_digits]. destruct (ceqb c 42%N) eqn:C.
  - exfalso. destruct d as [|x d].
    + cbn in E. destruct (Hr c t E) as [_ F]. congruence.
    + injection E as -> _. inversion Hd as [|? ? Hx _]; subst. apply N.eqb_eq in C. subst c. unfold digit in Hx. lia.
  - rewrite K. reflexivity.
Qed.
Lemma precision_read : forall q j c t, precision q j -> In c (lit "dioxXfeEgGaAs") -> read_precision (q ++ c :: t) = (j, c :: t).
Proof.
  intros q j c t H Hc. destruct (type_plain c Hc) as (D & _ & _ & S & P & _). destruct H as [|a k H].
  - cbn [app read_precision]. rewrite P. reflexivity.
  - change ((lit "." ++ a) ++ c :: t) with (46%N :: (a ++ c :: t)). cbn [read_precision]. change (ceqb 46%N 46%N) with true. cbv iota.
    apply star_read; [exact H|]. intros d u E. injection E as <- _. auto.
Qed.
Lemma precision_head : forall q j c t d u, precision q j -> In c (lit "dioxXfeEgGaAs") -> q ++ c :: t = d :: u ->
  d = c \/ d = 46%N.
Proof. intros q j c t d u H Hc E. destruct H; [left|right]; cbn in E; congruence. Qed.
(** Zeros at the start of a width count as flags. *)
Lemma amount_read : forall a i q j c t, amount a i -> precision q j -> In c (lit "dioxXfeEgGaAs") ->
  star_or_digits (skip_while is_flag (a ++ q ++ c :: t)) = (i, q ++ c :: t).
Proof.
  intros a i q j c t H Hq Hc. destruct (type_plain c Hc) as (D & F & _ & S & _ & _).
  assert (R : forall d u, q ++ c :: t = d :: u -> is_digit d = false /\ ceqb d 42%N = false).
  { intros d u E. destruct (precision_head q j c t d u Hq Hc E) as [-> | ->]; [auto|split; reflexivity]. }
  assert (FR : skip_while is_flag (q ++ c :: t) = q ++ c :: t).
  { destruct (q ++ c :: t) as [|d u] eqn:E; [reflexivity|]. apply skip_while_stop.
    destruct (precision_head q j c t d u Hq Hc E) as [-> | ->]; [exact F|reflexivity]. }
  destruct H as [|d Hd].
  - cbn [app lit]. change (lit "*" ++ q ++ c :: t) with (42%N :: q ++ c :: t). rewrite skip_while_stop by reflexivity. reflexivity.
  - induction Hd as [|x d Hx Hd IH].
    + cbn [app]. rewrite FR. destruct (q ++ c :: t) as [|e u] eqn:E; [reflexivity|]. destruct (R e u eq_refl) as [R1 R2].
      cbn [star_or_digits]. rewrite R2, skip_while_stop by exact R1. reflexivity.
    + cbn [app skip_while]. destruct (is_flag x) eqn:Fx; [exact IH|].
      change (x :: d ++ q ++ c :: t) with ((x :: d) ++ q ++ c :: t). apply star_read; [constructor; constructor; auto|exact R].
Qed.
Lemma flags_read : forall f a i q j c t, Forall (fun x => is_flag x = true) f -> amount a i -> precision q j -> In c (lit "dioxXfeEgGaAs") ->
  star_or_digits (skip_while is_flag (f ++ a ++ q ++ c :: t)) = (i, q ++ c :: t).
Proof. intros f a i q j c t Hf Ha Hq Hc. rewrite skip_while_app by exact Hf. apply amount_read with j; auto. Qed.
(** No [$] in what follows the position, before the type. *)
Lemma take_digits_head : forall x c t, is_digit c = false -> exists ds d u, take_digits (x ++ c :: t) = (ds, d :: u) /\ In d (x ++ [c]).
Proof.
  induction x as [|y x IH]; intros c t H; cbn [app take_digits].
  - rewrite H. exists [], c, t. split; [reflexivity|left; reflexivity].
  - destruct (is_digit y).
    + destruct (IH c t H) as (ds & d & u & -> & Hin). exists (y :: ds), d, u. split; [reflexivity|right; exact Hin].
    + exists [], y, (x ++ c :: t). split; [reflexivity|left; reflexivity].
Qed.
Lemma middle_chars : forall f a i q j c d, Forall (fun x => is_flag x = true) f -> amount a i -> precision q j -> In c (lit "dioxXfeEgGaAs") ->
  In d ((f ++ a ++ q) ++ [c]) -> ceqb d 36%N = false /\ d <> 37%N.
Proof.
  intros f a i q j c d Hf Ha Hq Hc H.
  assert (A : forall x k e, amount x k -> In e x -> ceqb e 36%N = false /\ e <> 37%N).
  { intros x k e Hx He. destruct Hx as [|x Hx].
    - destruct He as [<-|[]]. split; [reflexivity|discriminate].
    - rewrite Forall_forall in Hx. specialize (Hx e He). unfold digit in Hx. split; [apply N.eqb_neq|]; lia. }
  apply in_app_or in H. destruct H as [H|[<-|[]]].
  - apply in_app_or in H. destruct H as [H|H].
    + rewrite Forall_forall in Hf. specialize (Hf d H). apply flag_iff in Hf.
      change (lit "-+ #0") with [45; 43; 32; 35; 48]%N in Hf. cbn [In] in Hf.
      repeat (destruct Hf as [<-|Hf]; [split; [reflexivity|discriminate]|]). destruct Hf.
    + apply in_app_or in H. destruct H as [H|H]; [apply (A a i); auto|].
      destruct Hq as [|x k Hx]; [destruct H|]. destruct H as [<-|H]; [split; [reflexivity|discriminate]|]. apply (A x k); auto.
  - destruct (type_plain c Hc) as (_ & _ & _ & _ & _ & K & N). auto.
Qed.
Lemma specifier_read : forall n u i v t acc, specifier u i v -> scan_format (S n) (u ++ t) acc = scan_format n t (add_spec (placed acc v) i).
Proof.
  intros n u i v t acc H. destruct H as [w p v f a i q j c Hw Hp Hf Ha Hq Hc]. apply flags_iff in Hf.
  replace ((lit "%" ++ w ++ p ++ f ++ a ++ q ++ [c]) ++ t) with (37%N :: w ++ p ++ f ++ a ++ q ++ c :: t)
    by (rewrite <- !app_assoc; reflexivity).
  pose proof (type_plain c Hc) as (TD & TF & TW & TS & TP & TX & TN).
  assert (K : exists e t1 s2, skip_while is_ws (w ++ p ++ f ++ a ++ q ++ c :: t) = e :: t1 /\ e <> 37%N /\
    read_position (e :: t1) = (v, s2) /\ star_or_digits (skip_while is_flag s2) = (i, q ++ c :: t)).
  { rewrite skip_while_app by exact Hw. destruct Hp as [|d x Hd Hx Lx].
    - (* spaces among the flags are skipped too *)
      cbn [app].
      assert (S : exists f2, skip_while is_ws (f ++ a ++ q ++ c :: t) = f2 ++ a ++ q ++ c :: t /\ Forall (fun x => is_flag x = true) f2).
      { assert (Z : skip_while is_ws (a ++ q ++ c :: t) = a ++ q ++ c :: t).
        { destruct Ha as [|d Hd]; [apply skip_while_stop; reflexivity|]. destruct Hd as [|y d Hy Hd].
          - cbn [app]. destruct Hq; [apply skip_while_stop, TW|apply skip_while_stop; reflexivity].
          - cbn [app]. apply skip_while_stop. unfold digit in Hy. unfold is_ws.
            repeat (apply Bool.orb_false_iff; split); try (apply N.eqb_neq; lia); apply Bool.andb_false_iff;
              first [left; apply N.leb_gt; lia | right; apply N.leb_gt; lia]. }
        clear - Hf Z. induction Hf as [|x f Hx Hf IH].
        - exists []. split; [exact Z|constructor].
        - cbn [app skip_while]. destruct (is_ws x); [exact IH|]. exists (x :: f). split; [reflexivity|constructor; auto]. }
      destruct S as (f2 & S & Hf2). rewrite S.
      assert (M : f2 ++ a ++ q ++ c :: t = (f2 ++ a ++ q) ++ c :: t) by (rewrite <- !app_assoc; reflexivity).
      assert (MC : forall d, In d ((f2 ++ a ++ q) ++ [c]) -> ceqb d 36%N = false /\ d <> 37%N)
        by (intros d Hd; eapply middle_chars; eauto).
      destruct (f2 ++ a ++ q ++ c :: t) as [|e t1] eqn:E.
      { destruct f2; destruct a; destruct q; discriminate E. }
      exists e, t1, (e :: t1). split; [reflexivity|].
      assert (He : In e ((f2 ++ a ++ q) ++ [c])).
      { destruct (f2 ++ a ++ q) as [|y r]; cbn [app] in M; injection M as -> _; left; reflexivity. }
      split; [apply (MC e He)|]. split.
      + unfold read_position. destruct (take_digits_head (f2 ++ a ++ q) c t TD) as (ds & d & u & T & Hin).
        rewrite M, T. destruct (MC d Hin) as [Q _]. rewrite Q. rewrite <- M. reflexivity.
      + rewrite <- E. apply flags_read with j; auto.
    - destruct d as [|d0 d]; [congruence|]. apply stands_for_iff in Hx. destruct Hx as [Dd Nd].
      assert (D0 : digit d0) by (inversion Dd; auto).
      exists d0, (d ++ 36%N :: f ++ a ++ q ++ c :: t), (f ++ a ++ q ++ c :: t).
      replace (((d0 :: d) ++ lit "$") ++ f ++ a ++ q ++ c :: t) with (d0 :: d ++ 36%N :: f ++ a ++ q ++ c :: t)
        by (rewrite <- app_assoc; reflexivity).
      split.
      { apply skip_while_stop. unfold digit in D0. unfold is_ws.
        repeat (apply Bool.orb_false_iff; split); try (apply N.eqb_neq; lia); apply Bool.andb_false_iff;
          first [left; apply N.leb_gt; lia | right; apply N.leb_gt; lia]. }
      split; [unfold digit in D0; lia|]. split.
      + unfold read_position. change (d0 :: d ++ 36%N :: f ++ a ++ q ++ c :: t) with ((d0 :: d) ++ 36%N :: f ++ a ++ q ++ c :: t).
        rewrite take_digits_app; [|exact Dd|intros e u He F; injection F as <- _; unfold digit in He; lia].
        change (ceqb 36%N 36%N) with true. cbv iota. rewrite Nd. change (2 ^ 64)%N with position_limit in Lx. rewrite (proj2 (N.ltb_lt _ _) Lx). reflexivity.
      + apply flags_read with j; auto. }
  destruct K as (e & t1 & s2 & E & Ne & RP & SD).
  rewrite (scan_spec _ _ _ _ _ E Ne), RP, SD, (precision_read q j c t Hq Hc).
  rewrite (proj2 (type_iff c) Hc). reflexivity.
Qed.

Definition extended (acc : format) (l : list (nat * option N)) (k : text) : format :=
  mk_format (specs acc ++ map fst l) (invalid acc)
    (positional acc || match positions l with [] => false | _ => true end)
    (N.max (max_position acc) (fold_right N.max 0%N (positions l))) (constant acc ++ k).
Lemma extended_nil : forall acc, extended acc [] [] = acc.
Proof. intros [s i p m c]. unfold extended. cbn. rewrite !app_nil_r, Bool.orb_false_r, N.max_0_r. reflexivity. Qed.
Lemma scan_complete : forall t l k, format_of t l k -> forall n acc, length t <= n -> scan_format n t acc = extended acc l k.
Proof.
  intros t l k H. induction H as [|c t l k Hc H IH|w t l k Hw H IH|u i v t l k Hu H IH]; intros n acc L.
  - rewrite extended_nil. destruct n; reflexivity.
  - destruct n as [|n]; [cbn in L; lia|]. cbn [length] in L. rewrite scan_char by exact Hc. rewrite IH by lia.
    unfold extended, add_text. cbn [specs invalid positional max_position constant]. rewrite <- app_assoc. reflexivity.
  - destruct n as [|n]; [cbn in L; lia|].
    change (lit "%" ++ w ++ lit "%" ++ t) with (37%N :: w ++ 37%N :: t). cbn in L. rewrite app_length in L. cbn in L.
    rewrite (scan_percent n (w ++ 37%N :: t) t); [|rewrite skip_while_app by exact Hw; reflexivity].
    rewrite IH by lia. unfold extended, add_text. cbn [specs invalid positional max_position constant]. rewrite <- app_assoc. reflexivity.
  - destruct n as [|n]; [destruct Hu; cbn in L; lia|].
    rewrite (specifier_read n u i v t acc Hu). rewrite IH.
    2:{ rewrite app_length in L. assert (0 < length u) by (destruct Hu; cbn; lia). lia. }
    destruct acc as [s b p m c]. destruct v as [x|]; unfold extended, add_spec, placed;
      cbn [specs invalid positional max_position constant map fst positions flat_map snd app]; rewrite <- app_assoc.
    + fold (positions l). cbn [app fold_right]. rewrite N.max_assoc, Bool.orb_true_r. reflexivity.
    + fold (positions l). reflexivity.
Qed.
Lemma format_iff : forall t, invalid (parse_sprintf_format t) = false <-> exists l k, format_of t l k.
Proof.
  intro t. unfold parse_sprintf_format. split.
  - apply scan_sound. lia.
  - intros (l & k & H). rewrite (scan_complete t l k H) by lia. reflexivity.
Qed.
Lemma format_unique : forall t l k l' k', format_of t l k -> format_of t l' k' ->
  map fst l = map fst l' /\ takes l = takes l' /\ k = k'.
Proof.
  intros t l k l' k' H H'.
  pose proof (scan_complete t l k H (length t) (mk_format [] false false 0%N []) (Nat.le_refl _)) as E.
  rewrite (scan_complete t l' k' H') in E by lia. unfold extended in E. cbn [specs invalid positional max_position constant app orb] in E.
  assert (E1 := f_equal specs E). assert (E2 := f_equal positional E). assert (E3 := f_equal max_position E). assert (E4 := f_equal constant E).
  cbn [specs invalid positional max_position constant] in *. rewrite !N.max_0_l in E3. split; [auto|]. split; [|auto].
  unfold takes. rewrite E1. destruct (positions l), (positions l'); try discriminate E2; auto.
Qed.
Lemma sprintf_flags : forall fs e, some (sprintf_rule fs e) <-> flags_sprintf fs e.
Proof.
  intros fs e. unfold flags_sprintf. destruct e as [ | | | |f args| | | | | | | | ]; try (not_call).
  match goal with |- _ <-> ?G => assert (K : G <-> teqb (get_function_name f) (lit "sprintf") = true /\ has_previous_pipe fs = false /\
    exists nm t, get_arg_by_name_then_position args (lit "fmt") 1 = Some (nm, Some (EAtom (AStr t))) /\
    ((forall l k, ~ format_of t l k) \/
     exists l k, format_of t l k /\
       (l = [] \/
        takes l <> N.of_nat (length (get_unnamed_args args) - match nm with None => 1 | Some _ => 0 end)))) end.
  { assert (P : (forall nl l fs', fs <> FBinR BPipe nl l :: fs') <-> has_previous_pipe fs = false).
    { destruct fs as [|fr fs]; [split; [reflexivity|intros _ ? ? ? F; discriminate F]|].
      destruct fr; try (split; [reflexivity|intros _ ? ? ? F; discriminate F]).
      destruct o; try (split; [reflexivity|intros _ ? ? ? F; discriminate F]).
      split; [intro F; destruct (F nl l fs eq_refl)|discriminate]. }
    rewrite <- P, (named_is f) by nn. split.
    - intros (a & nm & t & H & N & C & R). apply calls_iff in H. destruct H as [-> H]. split; [exact H|]. split; [exact N|].
      exists nm, t. split; [apply chosen_iff, C|exact R].
    - intros (H & N & nm & t & C & R). exists args, nm, t. split; [apply calls_iff; auto|]. split; [exact N|]. split; [apply chosen_iff, C|exact R]. }
  rewrite K. clear K. cbn [sprintf_rule]. destruct (teqb (get_function_name f) (lit "sprintf")); cbn [negb]; [|name_off]. rewrite true_and.
  destruct (has_previous_pipe fs); [name_off|].
  destruct (get_arg_by_name_then_position args (lit "fmt") 1) as [[nm [v|]]|];
    try (apply some_no_iff; intros (_ & ? & ? & F & _); discriminate F).
  destruct v as [a| | | | | | | | | | | | ]; try (apply some_no_iff; intros (_ & ? & ? & F & _); discriminate F).
  destruct a; try (apply some_no_iff; intros (_ & ? & ? & F & _); discriminate F).
  match goal with |- _ <-> ?G => assert (K : G <-> ((forall l k, ~ format_of t l k) \/
     exists l k, format_of t l k /\
       (l = [] \/
        takes l <> N.of_nat (length (get_unnamed_args args) - match nm with None => 1 | Some _ => 0 end)))) end.
  { split; [intros (_ & nm' & t' & E & H); injection E as -> ->; exact H|]. intro H. split; [reflexivity|]. exists nm, t. auto. }
  rewrite K. clear K.
  destruct (invalid (parse_sprintf_format t)) eqn:V.
  - apply some_yes_iff. left. intros l k F. assert (invalid (parse_sprintf_format t) = false) by (apply format_iff; eauto). congruence.
  - destruct (proj1 (format_iff t) V) as (l & k & F).
    assert (E : parse_sprintf_format t = extended (mk_format [] false false 0%N []) l k) by (apply (scan_complete t l k F); lia).
    match goal with |- _ <-> ?G => assert (K : G <-> l = [] \/
        takes l <> N.of_nat (length (get_unnamed_args args) - match nm with None => 1 | Some _ => 0 end)) end.
    { split.
      - intros [N|(l' & k' & F' & H)]; [destruct (N l k F)|]. destruct (format_unique t l k l' k' F F') as (M & T & _).
        destruct H as [-> | H]; [left; destruct l; [reflexivity|discriminate M]|right; congruence].
      - intro H. right. eauto. }
    rewrite K. clear K. rewrite E. unfold extended. cbn [specs invalid positional max_position constant app orb].
    rewrite N.max_0_l.
    assert (G : match nm with Some _ => length (get_unnamed_args args) | None => length (get_unnamed_args args) - 1 end =
      length (get_unnamed_args args) - match nm with None => 1 | Some _ => 0 end) by (destruct nm; lia).
    rewrite G. destruct l as [|x l]; [apply some_yes_iff; auto|]. cbn [map].
    assert (T : (if match positions (x :: l) with [] => false | _ => true end then fold_right N.max 0%N (positions (x :: l)) else N.of_nat (list_sum (fst x :: map fst l))) = takes (x :: l)).
    { unfold takes. destruct (positions (x :: l)); reflexivity. }
    rewrite T. destruct (takes (x :: l) =? N.of_nat (length (get_unnamed_args args) - match nm with Some _ => 0 | None => 1 end))%N eqn:Q.
    + apply some_no_iff. apply N.eqb_eq in Q. intros [H|H]; [discriminate H|congruence].
    + apply some_yes_iff. right. apply N.eqb_neq, Q.
Qed.
