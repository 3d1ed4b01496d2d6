(** The parser of Spec/RGrammar.v and the trees of Spec/RWellFormed.v. *)
From Verif Require Import Spec.RGrammar Spec.RWellFormed.

(** ** Induction on expressions, through their argument lists *)
Section Induction.
  Variable P : expr -> Prop.
  Definition optP (v : option expr) : Prop := match v with Some e => P e | None => True end.
  Hypothesis Hatom : forall a, P (EAtom a).
  Hypothesis Hparen : forall e, P e -> P (EParen e).
  Hypothesis Hun : forall u e, P e -> P (EUn u e).
  Hypothesis Hbin : forall o nl l r, P l -> P r -> P (EBin o nl l r).
  Hypothesis Hcall : forall f args, P f -> Forall (fun a : arg => optP (snd a)) args -> P (ECall f args).
  Hypothesis Hsub : forall d x args, P x -> Forall (fun a : arg => optP (snd a)) args -> P (ESub d x args).
  Hypothesis Hext : forall x o n, P x -> P (EExtract x o n).
  Hypothesis Hif : forall c t el, P c -> P t -> optP el -> P (EIf c t el).
  Hypothesis Hfun : forall ps b, Forall (fun a : param => optP (snd a)) ps -> P b -> P (EFun ps b).
  Hypothesis Hfor : forall v s b, P s -> P b -> P (EFor v s b).
  Hypothesis Hwhile : forall c b, P c -> P b -> P (EWhile c b).
  Hypothesis Hrep : forall b, P b -> P (ERepeat b).
  Hypothesis Hbr : forall es, Forall P es -> P (EBraces es).

  Fixpoint expr_ind2 (e : expr) : P e :=
    let opt (v : option expr) : optP v :=
      match v with Some x => expr_ind2 x | None => I end in
    match e with
    | EAtom a => Hatom a
    | EParen e => Hparen e (expr_ind2 e)
    | EUn u e => Hun u e (expr_ind2 e)
    | EBin o nl l r => Hbin o nl l r (expr_ind2 l) (expr_ind2 r)
    | ECall f args =>
        Hcall f args (expr_ind2 f)
          ((fix go l : Forall (fun a : arg => optP (snd a)) l :=
              match l with
              | [] => Forall_nil _
              | a :: l' => Forall_cons a
                  (match a as a return optP (snd a) with
                   | (n, v) => match v as v return optP v with
                               | Some x => expr_ind2 x | None => I end end) (go l')
              end) args)
    | ESub d f args =>
        Hsub d f args (expr_ind2 f)
          ((fix go l : Forall (fun a : arg => optP (snd a)) l :=
              match l with
              | [] => Forall_nil _
              | a :: l' => Forall_cons a
                  (match a as a return optP (snd a) with
                   | (n, v) => match v as v return optP v with
                               | Some x => expr_ind2 x | None => I end end) (go l')
              end) args)
    | EExtract x o n => Hext x o n (expr_ind2 x)
    | EIf c t el =>
        Hif c t el (expr_ind2 c) (expr_ind2 t)
          (match el as v return optP v with Some x => expr_ind2 x | None => I end)
    | EFun ps b =>
        Hfun ps b
          ((fix go l : Forall (fun a : param => optP (snd a)) l :=
              match l with
              | [] => Forall_nil _
              | a :: l' => Forall_cons a
                  (match a as a return optP (snd a) with
                   | (n, v) => match v as v return optP v with
                               | Some x => expr_ind2 x | None => I end end) (go l')
              end) ps)
          (expr_ind2 b)
    | EFor v s b => Hfor v s b (expr_ind2 s) (expr_ind2 b)
    | EWhile c b => Hwhile c b (expr_ind2 c) (expr_ind2 b)
    | ERepeat b => Hrep b (expr_ind2 b)
    | EBraces es =>
        Hbr es ((fix go l : Forall P l :=
              match l with
              | [] => Forall_nil _
              | a :: l' => Forall_cons a (expr_ind2 a) (go l')
              end) es)
    end.
End Induction.

(** ** Folded predicates *)
Lemma wf_args_Forall : forall (args : list arg),
  fold_right (fun (a : arg) P =>
        match snd a with Some v => wf true v /\ arg_level <= lmin v | None => True end /\ P) True args
  <-> Forall (fun a : arg => owf (snd a)) args.
Proof.
  induction args as [|a l IH]; cbn [fold_right].
  - split; auto.
  - rewrite IH. split.
    + intros [H1 H2]. constructor; auto.
    + intros H. inversion H; auto.
Qed.
Lemma wf_params_Forall : forall (args : list param),
  fold_right (fun (a : param) P =>
        match snd a with Some v => wf true v /\ arg_level <= lmin v | None => True end /\ P) True args
  <-> Forall (fun a : param => owf (snd a)) args.
Proof.
  induction args as [|a l IH]; cbn [fold_right].
  - split; auto.
  - rewrite IH. split.
    + intros [H1 H2]. constructor; auto.
    + intros H. inversion H; auto.
Qed.
Lemma wf_seq_Forall : forall es,
  fold_right (fun e P => wf false e /\ P) True es <-> Forall (wf false) es.
Proof.
  induction es as [|a l IH]; cbn [fold_right].
  - split; auto.
  - rewrite IH. split.
    + intros [H1 H2]. constructor; auto.
    + intros H. inversion H; auto.
Qed.

(** ** More steps never change an answer *)
Lemma pbind_mono : forall {A B} (x x' : pres A) (k k' : A -> list tok -> pres B),
  (x <> POut -> x' = x) ->
  (forall a r, k a r <> POut -> k' a r = k a r) ->
  pbind x k <> POut -> pbind x' k' = pbind x k.
Proof.
  intros A B x x' k k' Hx Hk H.
  destruct x as [| |a r]; cbn in *.
  - congruence.
  - rewrite Hx by discriminate. reflexivity.
  - rewrite Hx by discriminate. cbn. auto.
Qed.

Definition mono_at (n : nat) : Prop :=
  (forall n' i m ts, n <= n' -> pexp n i m ts <> POut -> pexp n' i m ts = pexp n i m ts) /\
  (forall n' i m l ts, n <= n' -> ploop n i m l ts <> POut -> ploop n' i m l ts = ploop n i m l ts) /\
  (forall n' ts, n <= n' -> pargs n ts <> POut -> pargs n' ts = pargs n ts) /\
  (forall n' ts, n <= n' -> pparams n ts <> POut -> pparams n' ts = pparams n ts) /\
  (forall n' ts, n <= n' -> pseq n ts <> POut -> pseq n' ts = pseq n ts).

Ltac mono_step H1 H2 H3 H4 H5 :=
  repeat match goal with
  | |- pbind _ _ <> POut -> pbind _ _ = pbind _ _ => apply pbind_mono
  | |- ?x <> POut -> ?x = ?x => intros; reflexivity
  | |- pexp ?n _ _ _ <> POut -> _ => apply H1; lia
  | |- ploop ?n _ _ _ _ <> POut -> _ => apply H2; lia
  | |- pargs ?n _ <> POut -> _ => apply H3; lia
  | |- pparams ?n _ <> POut -> _ => apply H4; lia
  | |- pseq ?n _ <> POut -> _ => apply H5; lia
  | |- forall (_ : list tok), _ => intro
  | |- forall (_ : expr), _ => intro
  | |- forall (_ : option expr), _ => intro
  | |- forall (_ : list expr), _ => intro
  | |- forall (_ : list arg), _ => intro
  | |- forall (_ : list param), _ => intro
  | |- context [match ?x with _ => _ end] => is_var x; destruct x
  | |- context [if ?x then _ else _] => destruct x
  end.

Lemma mono : forall n, mono_at n.
Proof.
  induction n as [|n IH].
  - repeat split; intros; cbn in *; congruence.
  - destruct IH as (H1 & H2 & H3 & H4 & H5).
    repeat split; intros n' *; (intros Hn; destruct n' as [|n']; [lia|]);
      apply le_S_n in Hn; cbn [pexp ploop pargs pparams pseq].
    + mono_step H1 H2 H3 H4 H5.
    + destruct (next_op i ts) as [[[o nl] r]|];
      mono_step H1 H2 H3 H4 H5.
    + mono_step H1 H2 H3 H4 H5.
    + mono_step H1 H2 H3 H4 H5.
    + mono_step H1 H2 H3 H4 H5.
Qed.

Lemma pprog_mono : forall n n' ts, n <= n' -> pprog n ts <> POut -> pprog n' ts = pprog n ts.
Proof.
  intros n n' ts Hn. unfold pprog. destruct ts; [auto|].
  apply pbind_mono.
  - apply (mono n); auto.
  - intros a r _. reflexivity.
Qed.

(** R reads a file in one way. *)
Lemma reads_det : forall ts p q, reads ts p -> reads ts q -> p = q.
Proof.
  intros ts p q [n Hn] [k Hk].
  assert (E1 : pprog (n + k) ts = POk p []).
  { rewrite <- Hn. apply pprog_mono; [lia|]. rewrite Hn. discriminate. }
  assert (E2 : pprog (n + k) ts = POk q []).
  { rewrite <- Hk. apply pprog_mono; [lia|]. rewrite Hk. discriminate. }
  congruence.
Qed.
Lemma reads_no_error : forall ts p, reads ts p -> syntax_error ts -> False.
Proof.
  intros ts p [n Hn] [k Hk].
  assert (E1 : pprog (n + k) ts = POk p []).
  { rewrite <- Hn. apply pprog_mono; [lia|]. rewrite Hn. discriminate. }
  assert (E2 : pprog (n + k) ts = PErr).
  { rewrite <- Hk. apply pprog_mono; [lia|]. rewrite Hk. discriminate. }
  congruence.
Qed.

(** ** The parser reads the text of a well-formed tree as that tree *)
Definition conv {A} (f : nat -> pres A) (r : pres A) : Prop :=
  exists n0, forall n, n0 <= n -> f n = r.

Lemma conv_succ : forall {A} (f g : nat -> pres A) r,
  (forall n, f (S n) = g n) -> conv g r -> conv f r.
Proof.
  intros A f g r E [n0 H]. exists (S n0). intros n Hn.
  destruct n; [lia|]. rewrite E. apply H. lia.
Qed.
Lemma conv_bind : forall {A B} (f : nat -> pres A) (k : nat -> A -> list tok -> pres B) a ts r,
  conv f (POk a ts) -> conv (fun n => k n a ts) r -> conv (fun n => pbind (f n) (k n)) r.
Proof.
  intros A B f k a ts r [n1 H1] [n2 H2]. exists (n1 + n2). intros n Hn.
  rewrite H1 by lia. cbn. apply H2. lia.
Qed.
Lemma conv_const : forall {A} (r : pres A), conv (fun _ => r) r.
Proof. intros A r. exists 0. auto. Qed.
Lemma conv_ext : forall {A} (f g : nat -> pres A) r,
  (forall n, f n = g n) -> conv g r -> conv f r.
Proof. intros A f g r E [n0 H]. exists n0. intros. rewrite E. auto. Qed.

Definition postfix (ts : list tok) : bool :=
  match ts with TLp :: _ | TLb _ :: _ | TExtract _ _ :: _ => true | _ => false end.

(** Nothing in [rest] would be taken into the right edge of [t]. *)
Definition ends (i : bool) (t : expr) (rest : list tok) : Prop :=
  (forall o nl r, next_op i rest = Some (o, nl, r) -> lbp o < rmin t) /\
  (postfix rest = true -> 20 < rmin t) /\
  (hd_error rest = Some TElse -> opens t = false).

(** Nothing in [rest] continues an expression read at level [m]. *)
Definition stops (i : bool) (m : nat) (rest : list tok) : Prop :=
  (forall o nl r, next_op i rest = Some (o, nl, r) -> lbp o < m) /\ postfix rest = false.

Lemma ploop_stops : forall i m l rest, stops i m rest ->
  conv (fun n => ploop n i m l rest) (POk l rest).
Proof.
  intros i m l rest [H1 H2]. exists 1. intros n Hn. destruct n; [lia|].
  cbn [ploop]. destruct (next_op i rest) as [[[o nl] r]|] eqn:E.
  - specialize (H1 o nl r eq_refl). replace (m <=? lbp o) with false; [reflexivity|].
    symmetry. apply Nat.leb_gt. lia.
  - destruct rest as [|k rest]; [reflexivity|].
    destruct k; try reflexivity; cbn in H2; discriminate.
Qed.

Definition closer (k : tok) : Prop :=
  match k with
  | TRp | TRb _ | TRc | TComma | TElse => True
  | _ => False
  end.
Lemma closer_stops : forall i m k rest, closer k -> stops i m (k :: rest).
Proof.
  intros i m k rest H. split.
  - intros o nl r. destruct k; cbn in *; try contradiction; discriminate.
  - destruct k; cbn in *; try contradiction; reflexivity.
Qed.
Lemma stops_nl : forall m rest, stops false m (TNl :: rest).
Proof.
  intros m rest. split; [|reflexivity]. intros o nl r. cbn.
  destruct rest as [|[] ?]; discriminate.
Qed.
Lemma stops_nil : forall i m, stops i m [].
Proof. intros i m. split; [|reflexivity]. intros o nl r. discriminate. Qed.

(** A token that can start an expression. *)
Definition starter (k : tok) : Prop :=
  match k with
  | TAtom _ | TBang | TOp _ | TLp | TLc | TIf | TFun | TFor | TWhile | TRepeat => True
  | _ => False
  end.
Lemma toks_head : forall e, exists k ts, toks e = k :: ts /\ starter k.
Proof.
  induction e as [a|e IH|u e IH|o nl l r IHl IHr|f args IH _|d f args IH _|x o n IH|
                  c t el _ _ _|ps b _ _|v s b _ _|c b _ _|b _|es _] using expr_ind2;
    cbn [toks].
  - eexists _, _. split; [reflexivity|exact I].
  - eexists _, _. split; [reflexivity|exact I].
  - eexists _, _. split; [reflexivity|destruct u; exact I].
  - destruct IHl as (k & ts & E & H). rewrite E. eexists _, _. split; [reflexivity|exact H].
  - destruct IH as (k & ts & E & H). rewrite E. eexists _, _. split; [reflexivity|exact H].
  - destruct IH as (k & ts & E & H). rewrite E. eexists _, _. split; [reflexivity|exact H].
  - destruct IH as (k & ts & E & H). rewrite E. eexists _, _. split; [reflexivity|exact H].
  - eexists _, _. split; [reflexivity|exact I].
  - eexists _, _. split; [reflexivity|exact I].
  - eexists _, _. split; [reflexivity|exact I].
  - eexists _, _. split; [reflexivity|exact I].
  - eexists _, _. split; [reflexivity|exact I].
  - eexists _, _. split; [reflexivity|exact I].
Qed.

(** An expression does not start like a named argument. *)
Definition named_start (ts : list tok) : bool :=
  match ts with TAtom (AId _) :: TEq :: _ => true | _ => false end.
Lemma toks_not_named : forall e i rest, wf i e -> arg_level <= lmin e -> hd_error rest <> Some TEq ->
  named_start (toks e ++ rest) = false.
Proof.
  induction e as [a|e IH|u e IH|o nl l r IHl IHr|f args IH _|d f args IH _|x o n IH|
                  c t el _ _ _|ps b _ _|v s b _ _|c b _ _|b _|es _] using expr_ind2;
    intros i rest Hw Hm Hr; cbn [toks app]; try reflexivity.
  - destruct a; try reflexivity. destruct rest as [|[] ?]; cbn in *; try reflexivity.
    destruct o; try reflexivity. congruence.
  - destruct u; reflexivity.
  - cbn [wf lmin] in *. rewrite <- app_assoc. apply (IHl i); [apply Hw|lia|].
    destruct nl; cbn; [discriminate|]. destruct o; try discriminate. exfalso. unfold arg_level in Hm. cbn [lbp] in Hm. lia.
  - cbn [wf] in Hw. destruct Hw as (Hw & Hp & _). rewrite <- app_assoc. apply (IH i); [exact Hw| |cbn; discriminate].
    destruct f; try discriminate; cbn; unfold arg_level; lia.
  - cbn [wf] in Hw. destruct Hw as (Hw & Hp & _). rewrite <- app_assoc. apply (IH i); [exact Hw| |cbn; discriminate].
    destruct f; try discriminate; cbn; unfold arg_level; lia.
  - cbn [wf] in Hw. destruct Hw as (Hw & Hp). rewrite <- app_assoc. apply (IH i); [exact Hw| |cbn; discriminate].
    destruct x; try discriminate; cbn; unfold arg_level; lia.
Qed.

Lemma sep_cons2 : forall s x y l, sep s (x :: y :: l) = x ++ s ++ sep s (y :: l).
Proof. reflexivity. Qed.

Section Complete.
  (** What is to be proved of an expression. *)
  Definition reads_back (t : expr) : Prop :=
    forall i m rest r, wf i t -> m <= lmin t -> ends i t rest ->
      conv (fun n => ploop n i m t rest) r ->
      conv (fun n => pexp n i m (toks t ++ rest)) r.

  Lemma reads_back_stop : forall t i m rest, reads_back t -> wf i t -> m <= lmin t ->
    ends i t rest -> stops i m rest ->
    conv (fun n => pexp n i m (toks t ++ rest)) (POk t rest).
  Proof.
    intros t i m rest H Hw Hm He Hs. apply H; auto. apply ploop_stops; auto.
  Qed.

  Lemma ends_closer : forall i t k rest, closer k -> k <> TElse -> ends i t (k :: rest).
  Proof.
    intros i t k rest H Hk. repeat split.
    - intros o nl r E. destruct k; cbn in *; try contradiction; discriminate.
    - intros E. destruct k; cbn in *; try contradiction; discriminate.
    - cbn. congruence.
  Qed.

  Lemma closed_read : forall m t k rest, reads_back t -> wf true t -> m <= lmin t -> closer k -> k <> TElse ->
    conv (fun n => pexp n true m (toks t ++ k :: rest)) (POk t (k :: rest)).
  Proof.
    intros m t k rest H Hw Hm Hk Hk'. apply reads_back_stop; auto.
    - apply ends_closer; auto.
    - apply closer_stops; auto.
  Qed.

  Lemma pargs_complete : forall args k rest, args <> [] ->
    Forall (fun a : arg => optP reads_back (snd a)) args ->
    Forall (fun a : arg => owf (snd a)) args ->
    match k with TRp | TRb _ => True | _ => False end ->
    conv (fun n => pargs n (args_toks args ++ k :: rest)) (POk args (k :: rest)).
  Proof.
    induction args as [|[nm v] args IH]; intros k rest Hne Hr Hw Hk; [congruence|].
    inversion Hr as [|? ? Hr1 Hr2]; subst. inversion Hw as [|? ? Hw1 Hw2]; subst.
    cbn [snd] in *.
    (* the text after the value *)
    assert (Hcl : closer k /\ k <> TElse) by (destruct k; try contradiction; split; [exact I|discriminate|exact I|discriminate]).
    assert (Htail : exists tl, args_toks (@cons arg (nm, v) args) ++ k :: rest =
              name_toks nm ++ opt_toks v ++ tl /\
              ((args = [] /\ tl = k :: rest) \/
               (args <> [] /\ tl = TComma :: args_toks args ++ k :: rest))).
    { unfold args_toks. destruct args as [|a args].
      - cbn [map sep]. unfold arg_toks; cbn [fst snd].
        exists (k :: rest). split; [rewrite <- app_assoc; reflexivity|]. left; auto.
      - cbn [map]. rewrite sep_cons2. unfold arg_toks at 1; cbn [fst snd].
        eexists. split; [rewrite <- !app_assoc; reflexivity|]. right.
        split; [discriminate|]. reflexivity. }
    destruct Htail as (tl & Etl & Htl). rewrite Etl.
    assert (Htl' : exists k' tl', tl = k' :: tl' /\
              match k' with TRp | TRb _ | TComma => True | _ => False end).
    { destruct Htl as [[-> ->]|[_ ->]]; eexists _, _; (split; [reflexivity|]);
        [destruct k; auto|exact I]. }
    destruct Htl' as (k' & tl' & Ek' & Hk').
    assert (Hrest : conv (fun n => match tl with
        | TComma :: r => pbind (pargs n r) (fun l r => POk ((nm, v) :: l) r)
        | _ => POk [(nm, v)] tl
        end) (POk ((nm, v) :: args) (k :: rest))).
    { destruct Htl as [[-> ->]|[Hna ->]].
      - destruct k; try contradiction; apply conv_const.
      - eapply conv_bind; [apply IH; auto|]. apply conv_const. }
    assert (Hval : conv (fun n => match opt_toks v ++ tl with
             | TComma :: _ | TRp :: _ | TRb _ :: _ => POk None (opt_toks v ++ tl)
             | _ => pbind (pexp n true arg_level (opt_toks v ++ tl)) (fun e r => POk (Some e) r)
             end) (POk v tl)).
    { destruct v as [e|]; cbn [opt_toks app].
      - destruct (toks_head e) as (h & ts & Eh & Hh).
        assert (C : conv (fun n => pbind (pexp n true arg_level (toks e ++ tl))
                                     (fun e r => POk (Some e) r)) (POk (Some e) tl)).
        { eapply conv_bind; [|apply conv_const]. rewrite Ek'.
          apply closed_read; [exact Hr1|apply Hw1|apply Hw1| |]; destruct k'; try contradiction; try exact I; discriminate. }
        revert C. rewrite Eh. cbn [app].
        intros C. destruct h; cbn in Hh; try contradiction; exact C.
      - rewrite Ek'. destruct k'; try contradiction; apply conv_const. }
    eapply conv_succ; [intros n; cbn [pargs]; reflexivity|].
    destruct nm as [x|]; cbn [name_toks app].
    - eapply conv_bind with (k := fun n v r => match r with
        | TComma :: r => pbind (pargs n r) (fun l r => POk ((Some x, v) :: l) r)
        | _ => POk [(Some x, v)] r end); [exact Hval|exact Hrest].
    - assert (Hn : named_start (opt_toks v ++ tl) = false).
      { destruct v as [e|]; cbn [opt_toks app].
        - apply toks_not_named with (i := true); [apply Hw1|apply Hw1|]. rewrite Ek'. cbn. destruct k'; try contradiction; discriminate.
        - rewrite Ek'. destruct k'; try contradiction; reflexivity. }
      revert Hval. generalize (opt_toks v ++ tl), Hn. clear Hn Etl.
      intros ts Hn Hval.
      assert (E : match ts with
                  | TAtom (AId x) :: TEq :: r => (Some x, r)
                  | _ => (None, ts)
                  end = (None, ts)).
      { destruct ts as [|h ts]; [reflexivity|]. destruct h as [a| | | | | | | | | | | | | | | | | | ]; try reflexivity.
        destruct a; try reflexivity. destruct ts as [|[] ts]; try reflexivity. destruct o; try reflexivity. discriminate. }
      rewrite E.
      eapply conv_bind with (k := fun n v r => match r with
        | TComma :: r => pbind (pargs n r) (fun l r => POk ((None, v) :: l) r)
        | _ => POk [(None, v)] r end); [exact Hval|exact Hrest].
  Qed.

  Lemma pparams_complete : forall ps rest, ps <> [] ->
    Forall (fun a : param => optP reads_back (snd a)) ps ->
    Forall (fun a : param => owf (snd a)) ps ->
    conv (fun n => pparams n (params_toks ps ++ TRp :: rest)) (POk ps (TRp :: rest)).
  Proof.
    induction ps as [|[x v] ps IH]; intros rest Hne Hr Hw; [congruence|].
    inversion Hr as [|? ? Hr1 Hr2]; subst. inversion Hw as [|? ? Hw1 Hw2]; subst.
    cbn [snd] in *.
    assert (Htail : exists tl, params_toks (@cons param (x, v) ps) ++ TRp :: rest =
              TAtom (AId x) :: (match v with Some d => TEq :: toks d | None => [] end) ++ tl /\
              ((ps = [] /\ tl = TRp :: rest) \/
               (ps <> [] /\ tl = TComma :: params_toks ps ++ TRp :: rest))).
    { unfold params_toks. destruct ps as [|a args].
      - cbn [map sep]. unfold param_toks; cbn [fst snd].
        exists (TRp :: rest). split; [reflexivity|]. left; auto.
      - cbn [map]. rewrite sep_cons2. unfold param_toks at 1; cbn [fst snd].
        eexists. split; [cbn [app]; rewrite <- !app_assoc; reflexivity|]. right.
        split; [discriminate|]. reflexivity. }
    destruct Htail as (tl & Etl & Htl). rewrite Etl.
    assert (Htl' : exists k' tl', tl = k' :: tl' /\
              match k' with TRp | TComma => True | _ => False end).
    { destruct Htl as [[-> ->]|[_ ->]]; eexists _, _; (split; [reflexivity|]); exact I. }
    destruct Htl' as (k' & tl' & Ek' & Hk').
    assert (Hrest : conv (fun n => match tl with
        | TComma :: r => pbind (pparams n r) (fun l r => POk ((x, v) :: l) r)
        | _ => POk [(x, v)] tl
        end) (POk ((x, v) :: ps) (TRp :: rest))).
    { destruct Htl as [[-> ->]|[Hna ->]].
      - apply conv_const.
      - eapply conv_bind; [apply IH; auto|]. apply conv_const. }
    eapply conv_succ; [intros n; cbn [pparams]; reflexivity|].
    eapply conv_bind with (a := v) (ts := tl) (k := fun n v r => match r with
        | TComma :: r => pbind (pparams n r) (fun l r => POk ((x, v) :: l) r)
        | _ => POk [(x, v)] r end); [|exact Hrest].
    destruct v as [d|]; cbn [app].
    - eapply conv_bind; [|apply conv_const]. rewrite Ek'.
      apply closed_read; [exact Hr1|apply Hw1|apply Hw1| |]; destruct k'; try contradiction; try exact I; discriminate.
    - rewrite Ek'. destruct k'; try contradiction; apply conv_const.
  Qed.

  Lemma pseq_complete : forall es rest, es <> [] -> Forall reads_back es ->
    Forall (wf false) es ->
    (rest = [] \/ exists r, rest = TRc :: r) ->
    conv (fun n => pseq n (sep [TNl] (map toks es) ++ rest)) (POk es rest).
  Proof.
    induction es as [|e es IH]; intros rest Hne Hr Hw Hrest; [congruence|].
    inversion Hr as [|? ? Hr1 Hr2]; subst. inversion Hw as [|? ? Hw1 Hw2]; subst.
    eapply conv_succ; [intros n; cbn [pseq]; reflexivity|].
    destruct es as [|e2 es].
    - cbn [map sep].
      eapply conv_bind with (a := e) (ts := rest).
      + apply reads_back_stop; auto; [lia| |].
        * destruct Hrest as [->|[r ->]].
          -- repeat split; intros; discriminate.
          -- apply ends_closer; [exact I|discriminate].
        * destruct Hrest as [->|[r ->]].
          -- apply stops_nil.
          -- apply closer_stops; exact I.
      + destruct Hrest as [->|[r ->]]; apply conv_const.
    - change (map toks (e :: e2 :: es)) with (toks e :: toks e2 :: map toks es).
      rewrite sep_cons2. rewrite <- !app_assoc. cbn [app].
      eapply conv_bind.
      + apply reads_back_stop; auto; [lia| |].
        * repeat split; try discriminate.
          intros o nl r E. exfalso.
          pose proof (proj1 (stops_nl 0 (sep [TNl] (toks e2 :: map toks es) ++ rest)) o nl r E).
          lia.
        * apply stops_nl.
      + cbn beta. eapply conv_bind; [|apply conv_const]. apply IH; auto. discriminate.
  Qed.
End Complete.

Lemma rbp_lt : forall o, rbp o <= 19.
Proof. destruct o; cbn; lia. Qed.
Lemma ubp_lt : forall u, ubp u <= 18.
Proof. destruct u; cbn; lia. Qed.

(** When the right edge of [t] is that of a part [s] of it read at level [m]. *)
Lemma ends_stops : forall i t rest m, ends i t rest -> rmin t <= m -> m <= 19 ->
  stops i m rest.
Proof.
  intros i t rest m (H1 & H2 & H3) Hm Hm'. split.
  - intros o nl r E. apply H1 in E. lia.
  - destruct (postfix rest); [|reflexivity]. specialize (H2 eq_refl). lia.
Qed.
Lemma ends_part : forall i t s rest, ends i t rest -> rmin t <= rmin s ->
  (opens t = false -> opens s = false) -> ends i s rest.
Proof.
  intros i t s rest (H1 & H2 & H3) Hm Ho. repeat split.
  - intros o nl r E. apply H1 in E. lia.
  - intros E. apply H2 in E. lia.
  - intros E. apply Ho. auto.
Qed.
Lemma ends_head : forall i t rest, ends i t rest -> rmin t = 0 -> stops i 0 rest.
Proof. intros. eapply ends_stops; eauto; lia. Qed.

Lemma args_head : forall args k rest, args <> [] -> args <> [(None, None)] ->
  match k with TRp | TRb _ => True | _ => False end ->
  exists h tl, args_toks args ++ k :: rest = h :: tl /\ h <> TRp /\ (forall d, h <> TRb d).
Proof.
  intros [|[nm v] args] k rest H1 H2 Hk; [congruence|].
  unfold args_toks. destruct args as [|a args].
  - cbn [map sep]. unfold arg_toks; cbn [fst snd].
    destruct nm as [x|]; cbn [name_toks app].
    + eexists _, _. split; [reflexivity|]. split; discriminate.
    + destruct v as [e|]; [|congruence]. cbn [opt_toks].
      destruct (toks_head e) as (h & ts & Eh & Hh). rewrite Eh. cbn [app].
      eexists _, _. split; [reflexivity|]. destruct h; cbn in Hh; try contradiction;
        split; discriminate.
  - cbn [map]. rewrite sep_cons2. unfold arg_toks at 1; cbn [fst snd].
    destruct nm as [x|]; cbn [name_toks app].
    + eexists _, _. split; [reflexivity|]. split; discriminate.
    + destruct v as [e|]; cbn [opt_toks app].
      * destruct (toks_head e) as (h & ts & Eh & Hh). rewrite Eh. cbn [app].
        eexists _, _. split; [reflexivity|]. destruct h; cbn in Hh; try contradiction;
          split; discriminate.
      * eexists _, _. split; [reflexivity|]. split; discriminate.
Qed.

Lemma next_op_app : forall i o (nl : bool) ts, (nl = true -> i = true) ->
  next_op i ((if nl then [TNl] else []) ++ TOp o :: ts) = Some (o, nl, ts).
Proof. intros i o [] ts H; cbn; [rewrite H|]; reflexivity. Qed.

Lemma primary_rmin : forall e, primary e = true -> rmin e = 100.
Proof. destruct e; cbn; congruence. Qed.
Lemma primary_lmin : forall e, primary e = true -> lmin e = 100.
Proof. destruct e; cbn; congruence. Qed.

Theorem reads_back_all : forall t, reads_back t.
Proof.
  induction t as [a|e IH|u e IH|o nl l r IHl IHr|f args IH IHa|d f args IH IHa|x o n IH|
                  c t el IHc IHt IHe|ps b IHp IHb|v s b IHs IHb|c b IHc IHb|b IHb|es IHes] using expr_ind2;
    intros i m rest res Hw Hm He Hres; cbn [toks].
  - (* atom *)
    eapply conv_succ; [intros n; reflexivity|]. exact Hres.
  - (* paren *)
    cbn [wf] in Hw.
    eapply conv_succ; [intros n; reflexivity|]. cbn [app]. rewrite <- app_assoc. cbn [app].
    eapply conv_bind; [apply closed_read; auto; [lia|exact I|discriminate]|]. exact Hres.
  - (* unary *)
    cbn [wf] in Hw. destruct Hw as [Hw Hu].
    assert (C : conv (fun n => pexp n i (ubp u) (toks e ++ rest)) (POk e rest)).
    { apply reads_back_stop; auto.
      - eapply ends_part; [exact He|cbn [rmin]; lia|auto].
      - eapply ends_stops; [exact He|cbn [rmin]; lia|pose proof (ubp_lt u); lia]. }
    cbn [app].
    destruct u; (eapply conv_succ; [intros n; reflexivity|]); (eapply conv_bind; [exact C|]); exact Hres.
  - (* binary *)
    cbn [wf] in Hw. destruct Hw as (Hwl & Hwr & Hl & Hr & Hc & Hnl).
    cbn [lmin] in Hm. rewrite <- !app_assoc. cbn [app].
    set (ts' := (if nl then [TNl] else []) ++ TOp o :: toks r ++ rest).
    assert (En : next_op i ts' = Some (o, nl, toks r ++ rest)) by (apply next_op_app; auto).
    apply IHl; auto; [lia| |].
    + repeat split.
      * intros o' nl' r' E. rewrite En in E. injection E as <- <- <-. exact Hl.
      * subst ts'. destruct nl; cbn; discriminate.
      * subst ts'. destruct nl; cbn; discriminate.
    + eapply conv_succ; [intros n; cbn [ploop]; reflexivity|]. rewrite En.
      replace (m <=? lbp o) with true by (symmetry; apply Nat.leb_le; lia).
      rewrite Hc.
      eapply conv_bind with (a := r) (ts := rest).
      * apply reads_back_stop; auto.
        -- eapply ends_part; [exact He|cbn [rmin]; lia|auto].
        -- eapply ends_stops; [exact He|cbn [rmin]; lia|apply rbp_lt].
      * exact Hres.
  - (* call *)
    cbn [wf] in Hw. destruct Hw as (Hwf & Hp & Hne & Hwa). apply wf_args_Forall in Hwa.
    rewrite <- app_assoc. cbn [app]. rewrite <- app_assoc. cbn [app].
    change (map _ args) with (map arg_toks args). fold (args_toks args).
    apply IH; auto; [rewrite primary_lmin by auto; cbn [lmin] in Hm; lia| |].
    + repeat split; try discriminate. intros _. rewrite primary_rmin; auto. lia.
    + eapply conv_succ; [intros n; reflexivity|].
      destruct args as [|a args].
      * cbn. exact Hres.
      * destruct (args_head (a :: args) TRp rest) as (h & tl & E & Hh1 & Hh2); [discriminate|exact Hne|exact I|].
        assert (C := pargs_complete (a :: args) TRp rest ltac:(discriminate) IHa Hwa I).
        rewrite E in C |- *.
        assert (C2 : conv (fun n => pbind (pargs n (h :: tl)) (fun a r =>
            match r with TRp :: r => ploop n i m (ECall f a) r | _ => PErr end)) res).
        { eapply conv_bind; [exact C|exact Hres]. }
        revert C2. apply conv_ext. intros n. cbn [next_op].
        destruct h; try congruence; reflexivity.
  - (* subset *)
    cbn [wf] in Hw. destruct Hw as (Hwf & Hp & Hne & Hwa). apply wf_args_Forall in Hwa.
    rewrite <- app_assoc. cbn [app]. rewrite <- app_assoc. cbn [app].
    change (map _ args) with (map arg_toks args). fold (args_toks args).
    apply IH; auto; [rewrite primary_lmin by auto; cbn [lmin] in Hm; lia| |].
    + repeat split; try discriminate. intros _. rewrite primary_rmin; auto. lia.
    + eapply conv_succ; [intros n; reflexivity|].
      destruct args as [|a args].
      * cbn. rewrite Bool.eqb_reflx. exact Hres.
      * destruct (args_head (a :: args) (TRb d) rest) as (h & tl & E & Hh1 & Hh2); [discriminate|exact Hne|exact I|].
        assert (C := pargs_complete (a :: args) (TRb d) rest ltac:(discriminate) IHa Hwa I).
        rewrite E in C |- *.
        assert (C2 : conv (fun n => pbind (pargs n (h :: tl)) (fun a r =>
            match r with
            | TRb d' :: r => if Bool.eqb d d' then ploop n i m (ESub d f a) r else PErr
            | _ => PErr end)) res).
        { eapply conv_bind; [exact C|cbn beta iota; rewrite Bool.eqb_reflx; exact Hres]. }
        revert C2. apply conv_ext. intros n. cbn [next_op].
        destruct h; try congruence; try reflexivity; exfalso; eapply Hh2; reflexivity.
  - (* extract *)
    cbn [wf] in Hw. destruct Hw as (Hwf & Hp).
    rewrite <- app_assoc. cbn [app].
    apply IH; auto; [rewrite primary_lmin by auto; cbn [lmin] in Hm; lia| |].
    + repeat split; try discriminate. intros _. rewrite primary_rmin; auto. lia.
    + eapply conv_succ; [intros ?; reflexivity|]. exact Hres.
  - (* if *)
    cbn [wf] in Hw. destruct Hw as (Hwc & Hwt & Hwe). cbn [app]. rewrite <- !app_assoc. cbn [app].
    assert (Hstop : stops i 0 rest) by (eapply ends_head; [exact He|reflexivity]).
    eapply conv_succ; [intros n; reflexivity|].
    eapply conv_bind; [apply closed_read; [exact IHc|apply Hwc|apply Hwc|exact I|discriminate]|]. cbn beta iota.
    rewrite <- app_assoc.
    destruct el as [e|].
    + destruct Hwe as [Ho Hwe]. cbn [app].
      eapply conv_bind.
      * apply reads_back_stop; auto; [lia| |].
        -- repeat split; try discriminate. auto.
        -- apply closer_stops; exact I.
      * cbn beta iota. eapply conv_bind; [|exact Hres].
        apply reads_back_stop; auto; [lia|].
        repeat split.
        -- intros o nl r E. destruct Hstop as [Hs _]. apply Hs in E. lia.
        -- intros E. destruct Hstop as [_ Hs]. congruence.
        -- intros E. destruct He as (_ & _ & He). apply He in E. exact E.
    + cbn [app]. eapply conv_bind.
      * apply reads_back_stop; auto; [lia|].
        repeat split.
        -- intros o nl r E. destruct Hstop as [Hs _]. apply Hs in E. lia.
        -- intros E. destruct Hstop as [_ Hs]. congruence.
        -- intros E. destruct He as (_ & _ & He). apply He in E. discriminate.
      * cbn beta. destruct He as (_ & _ & He).
        destruct rest as [|k rest]; [exact Hres|].
        destruct k; try exact Hres. specialize (He eq_refl). discriminate.
  - (* function *)
    cbn [wf] in Hw. destruct Hw as (Hwp & Hwb). apply wf_params_Forall in Hwp.
    assert (Hstop : stops i 0 rest) by (eapply ends_head; [exact He|reflexivity]).
    assert (Cb : conv (fun n => pexp n i 0 (toks b ++ rest)) (POk b rest)).
    { apply reads_back_stop; auto; [lia|]. repeat split.
      - intros o nl r E. destruct Hstop as [Hs _]. apply Hs in E. lia.
      - intros E. destruct Hstop as [_ Hs]. congruence.
      - intros E. destruct He as (_ & _ & He). apply He in E. exact E. }
    cbn [app]. rewrite <- app_assoc. cbn [app].
    change (map _ ps) with (map param_toks ps). fold (params_toks ps).
    eapply conv_succ; [intros n; reflexivity|].
    destruct ps as [|[y d] ps].
    + cbn [params_toks map sep app]. eapply conv_bind; [exact Cb|exact Hres].
    + assert (C := pparams_complete (@cons param (y, d) ps) (toks b ++ rest) ltac:(discriminate) IHp Hwp).
      assert (E : exists tl, params_toks (@cons param (y, d) ps) ++ TRp :: toks b ++ rest = TAtom (AId y) :: tl).
      { unfold params_toks. destruct ps; cbn [map]; [|rewrite sep_cons2]; unfold param_toks; cbn [fst];
          cbn [sep app]; eexists; reflexivity. }
      destruct E as [tl E]. rewrite E in C |- *.
      eapply conv_bind; [exact C|]. cbn beta iota. eapply conv_bind; [exact Cb|exact Hres].
  - (* for *)
    cbn [wf] in Hw. destruct Hw as (Hws & Hwb).
    assert (Hstop : stops i 0 rest) by (eapply ends_head; [exact He|reflexivity]).
    assert (Cb : conv (fun n => pexp n i 0 (toks b ++ rest)) (POk b rest)).
    { apply reads_back_stop; auto; [lia|]. repeat split.
      - intros o nl r E. destruct Hstop as [Hs _]. apply Hs in E. lia.
      - intros E. destruct Hstop as [_ Hs]. congruence.
      - intros E. destruct He as (_ & _ & He). apply He in E. exact E. }
    cbn [app]. rewrite <- app_assoc. cbn [app].
    eapply conv_succ; [intros n; reflexivity|].
    eapply conv_bind; [apply closed_read; [exact IHs|apply Hws|apply Hws|exact I|discriminate]|]. cbn beta iota.
    eapply conv_bind; [exact Cb|exact Hres].
  - (* while *)
    cbn [wf] in Hw. destruct Hw as (Hws & Hwb).
    assert (Hstop : stops i 0 rest) by (eapply ends_head; [exact He|reflexivity]).
    assert (Cb : conv (fun n => pexp n i 0 (toks b ++ rest)) (POk b rest)).
    { apply reads_back_stop; auto; [lia|]. repeat split.
      - intros o nl r E. destruct Hstop as [Hs _]. apply Hs in E. lia.
      - intros E. destruct Hstop as [_ Hs]. congruence.
      - intros E. destruct He as (_ & _ & He). apply He in E. exact E. }
    cbn [app]. rewrite <- app_assoc. cbn [app].
    eapply conv_succ; [intros n; reflexivity|].
    eapply conv_bind; [apply closed_read; [exact IHc|apply Hws|apply Hws|exact I|discriminate]|]. cbn beta iota.
    eapply conv_bind; [exact Cb|exact Hres].
  - (* repeat *)
    cbn [wf] in Hw.
    assert (Hstop : stops i 0 rest) by (eapply ends_head; [exact He|reflexivity]).
    assert (Cb : conv (fun n => pexp n i 0 (toks b ++ rest)) (POk b rest)).
    { apply reads_back_stop; auto; [lia|]. repeat split.
      - intros o nl r E. destruct Hstop as [Hs _]. apply Hs in E. lia.
      - intros E. destruct Hstop as [_ Hs]. congruence.
      - intros E. destruct He as (_ & _ & He). apply He in E. exact E. }
    cbn [app].
    eapply conv_succ; [intros n; reflexivity|].
    eapply conv_bind; [exact Cb|exact Hres].
  - (* braces *)
    cbn [wf] in Hw. apply wf_seq_Forall in Hw.
    cbn [app]. rewrite <- app_assoc. cbn [app].
    eapply conv_succ; [intros n; reflexivity|].
    destruct es as [|e es].
    + cbn. exact Hres.
    + assert (C := pseq_complete (e :: es) (TRc :: rest) ltac:(discriminate) IHes Hw
                     (or_intror (ex_intro _ rest eq_refl))).
      assert (E : exists h tl, sep [TNl] (map toks (e :: es)) ++ TRc :: rest = h :: tl /\ h <> TRc).
      { destruct (toks_head e) as (h & ts & Eh & Hh).
        destruct es as [|e2 es];
          [cbn [map sep]; rewrite Eh|
           change (map toks (e :: e2 :: es)) with (toks e :: toks e2 :: map toks es);
           rewrite sep_cons2, Eh];
          cbn [app]; (eexists _, _; split; [reflexivity|]);
          destruct h; cbn in Hh; try contradiction; discriminate. }
      destruct E as (h & tl & E & Hh). rewrite E in C |- *.
      assert (C2 : conv (fun n => pbind (pseq n (h :: tl)) (fun es r =>
            match r with TRc :: r => ploop n i m (EBraces es) r | _ => PErr end)) res).
      { eapply conv_bind; [exact C|exact Hres]. }
      revert C2. apply conv_ext. intros n. destruct h; try congruence; reflexivity.
Qed.

Theorem wf_reads : forall p, Forall (wf false) p -> reads (prog_toks p) p.
Proof.
  intros p H. destruct p as [|e p].
  - exists 0. reflexivity.
  - assert (C : conv (fun n => pseq n (sep [TNl] (map toks (e :: p)) ++ [])) (POk (e :: p) [])).
    { apply pseq_complete; auto; [discriminate|].
      clear H. induction (e :: p) as [|x l IH]; constructor; auto. apply reads_back_all. }
    rewrite app_nil_r in C. destruct C as [n C]. exists n.
    unfold pprog, prog_toks.
    destruct (sep [TNl] (map toks (e :: p))) eqn:E.
    + exfalso. destruct (toks_head e) as (h & ts & Eh & _).
      destruct p as [|e2 p]; cbn [map] in E; [cbn [sep] in E|rewrite sep_cons2 in E];
        rewrite Eh in E; discriminate.
    + rewrite C by lia. reflexivity.
Qed.
