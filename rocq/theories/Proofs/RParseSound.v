(** Whatever the parser returns is a well-formed tree whose text is the text
    that was read. *)
From Verif Require Import Spec.RGrammar Spec.RWellFormed Proofs.RParse.

Lemma pbind_ok : forall {A B} (x : pres A) (k : A -> list tok -> pres B) b r,
  pbind x k = POk b r -> exists a r', x = POk a r' /\ k a r' = POk b r.
Proof. intros A B [| |a r'] k b r H; cbn in H; try discriminate. eauto. Qed.

Lemma rmin_primary : forall e, 20 < rmin e -> primary e = true.
Proof.
  destruct e; cbn; intros H; try reflexivity; try lia.
  - pose proof (ubp_lt u). lia.
  - pose proof (rbp_lt o). lia.
Qed.

Lemma ends_primary : forall i e ts, primary e = true -> ends i e ts.
Proof.
  intros i e ts H. repeat split.
  - intros o nl r _. rewrite primary_rmin by auto. destruct o; cbn; lia.
  - intros _. rewrite primary_rmin by auto. lia.
  - intros _. destruct e; cbn in *; congruence.
Qed.

Lemma next_op_split : forall i ts o nl r, next_op i ts = Some (o, nl, r) ->
  ts = (if nl then [TNl] else []) ++ TOp o :: r /\ (nl = true -> i = true) /\ postfix ts = false.
Proof.
  intros i ts o nl r H.
  destruct ts as [|k ts]; [discriminate|]. destruct k; try discriminate; cbn in H.
  - injection H as <- <- <-. split; [reflexivity|]. split; [discriminate|reflexivity].
  - destruct ts as [|k ts]; [discriminate|]. destruct k; try discriminate.
    destruct i; [|discriminate]. injection H as <- <- <-. auto.
Qed.

Definition good (i : bool) (m : nat) (t : expr) (rest : list tok) : Prop :=
  wf i t /\ m <= lmin t /\ ends i t rest /\ stops i m rest.

Definition sound_at (n : nat) : Prop :=
  (forall i m ts t rest, m <= 100 -> pexp n i m ts = POk t rest ->
     ts = toks t ++ rest /\ good i m t rest) /\
  (forall i m l ts t rest, wf i l -> m <= lmin l -> ends i l ts ->
     ploop n i m l ts = POk t rest ->
     toks l ++ ts = toks t ++ rest /\ good i m t rest) /\
  (forall ts args rest, pargs n ts = POk args rest ->
     ts = args_toks args ++ rest /\ args <> [] /\ Forall (fun a : arg => owf (snd a)) args) /\
  (forall ts ps rest, pparams n ts = POk ps rest ->
     ts = params_toks ps ++ rest /\ ps <> [] /\ Forall (fun a : param => owf (snd a)) ps) /\
  (forall ts es rest, pseq n ts = POk es rest ->
     ts = sep [TNl] (map toks es) ++ rest /\ es <> [] /\ Forall (wf false) es).

Lemma good_un : forall i u e rest, good i (ubp u) e rest ->
  wf i (EUn u e) /\ ends i (EUn u e) rest.
Proof.
  intros i u e rest (H1 & H2 & (H3 & H3' & H3'') & (H4 & H5)). split; [cbn; auto|].
  repeat split.
  - intros o nl r E. cbn [rmin]. pose proof (H3 _ _ _ E). pose proof (H4 _ _ _ E). lia.
  - intros E. congruence.
  - intros E. cbn [opens]. auto.
Qed.

Lemma good_head : forall i b t rest, good i 0 b rest -> rmin t = 0 -> opens t = opens b ->
  ends i t rest.
Proof.
  intros i b t rest (H1 & H2 & (H3 & H3' & H3'') & (H4 & H5)) Hr Ho. repeat split.
  - intros o nl r E. pose proof (H4 _ _ _ E). lia.
  - intros E. congruence.
  - intros E. rewrite Ho. auto.
Qed.

Ltac lvl := first [lia|unfold arg_level; lia].
Ltac ok H :=
  let a := fresh "a" in let r := fresh "r" in let H1 := fresh "H" in let H2 := fresh "K" in
  apply pbind_ok in H; destruct H as (a & r & H1 & H2).

Lemma args_one_empty : forall ts, args_toks [(None, None)] ++ ts = ts.
Proof. reflexivity. Qed.

Lemma sound : forall n, sound_at n.
Proof.
  induction n as [|n IH]; [repeat split; intros; discriminate|].
  destruct IH as (Hexp & Hloop & Hargs & Hparams & Hseq).
  assert (Hfin : forall i m t ts t' rest, m <= 100 -> wf i t -> lmin t = 100 -> ends i t ts ->
            ploop n i m t ts = POk t' rest -> toks t ++ ts = toks t' ++ rest /\ good i m t' rest).
  { intros i m t ts t' rest Hm Hw Hl He E. apply (Hloop i m t ts t' rest); auto. lia. }
  refine (conj _ (conj _ (conj _ (conj _ _)))).
  - intros i m ts t rest Hm E. cbn [pexp] in E.
    destruct ts as [|k ts]; [discriminate|].
    destruct k as [a| |o| | |d|d| | | | |o x| | | | | | | ]; try discriminate E.
    + apply (Hfin i m (EAtom a)) in E; auto; [exact I|apply ends_primary; reflexivity].
    + ok E. apply Hexp in H; [|lvl]. destruct H as [-> G].
      apply (good_un i UNot) in G. destruct G as [G1 G2].
      apply (Hfin i m (EUn UNot a)) in K; auto.
    + destruct o; try discriminate E; ok E; (apply Hexp in H; [|lvl]); destruct H as [-> G].
      * apply (good_un i UTilde) in G. destruct G as [G1 G2]. apply (Hfin i m (EUn UTilde a)) in K; auto.
      * apply (good_un i UPos) in G. destruct G as [G1 G2]. apply (Hfin i m (EUn UPos a)) in K; auto.
      * apply (good_un i UNeg) in G. destruct G as [G1 G2]. apply (Hfin i m (EUn UNeg a)) in K; auto.
    + ok E. apply Hexp in H; [|lvl]. destruct H as [-> G].
      destruct r as [|k r]; [discriminate|]. destruct k; try discriminate.
      apply (Hfin i m (EParen a)) in K; auto.
      * destruct K as [K G']. split; [|exact G'].
        rewrite <- K. cbn [toks app]. rewrite <- app_assoc. reflexivity.
      * destruct G as [G _]. exact G.
      * apply ends_primary; reflexivity.
    + destruct (match ts with TRc :: _ => true | _ => false end) eqn:Eh.
      * destruct ts as [|k ts]; [discriminate|]. destruct k; try discriminate Eh.
        apply (Hfin i m (EBraces [])) in E; auto; [exact I|apply ends_primary; reflexivity].
      * assert (E' : pbind (pseq n ts) (fun es r =>
                match r with TRc :: r => ploop n i m (EBraces es) r | _ => PErr end) = POk t rest).
        { destruct ts as [|k ts]; [exact E|]. destruct k; try exact E. discriminate Eh. }
        clear E. ok E'. apply Hseq in H. destruct H as (-> & Hne & Hw).
        destruct r as [|k r]; [discriminate|]. destruct k; try discriminate.
        apply (Hfin i m (EBraces a)) in K; auto.
        -- destruct K as [K G']. split; [|exact G'].
           rewrite <- K. cbn [toks app]. rewrite <- app_assoc. reflexivity.
        -- cbn [wf]. apply wf_seq_Forall. exact Hw.
        -- apply ends_primary; reflexivity.
    + destruct ts as [|k ts]; [discriminate|]. destruct k; try discriminate.
      ok E. apply Hexp in H; [|lvl]. destruct H as [-> Gc].
      destruct r as [|k r]; [discriminate|]. destruct k; try discriminate.
      ok K. apply Hexp in H; [|lvl]. destruct H as [-> Gt].
      destruct (match r0 with TElse :: _ => true | _ => false end) eqn:Eh.
      * destruct r0 as [|k r0]; [discriminate|]. destruct k; try discriminate Eh.
        ok K0. apply Hexp in H; [|lvl]. destruct H as [-> Ge].
        apply (Hfin i m (EIf a a0 (Some a1))) in K; auto.
        -- destruct K as [K G']. split; [|exact G'].
           rewrite <- K. cbn [toks app]. repeat (rewrite <- app_assoc; cbn [app]). reflexivity.
        -- cbn [wf]. split; [split; apply Gc|]. split; [apply Gt|]. split; [|apply Ge].
           destruct Gt as (_ & _ & (_ & _ & Gt) & _). apply Gt. reflexivity.
        -- apply good_head with (b := a1); auto.
      * assert (K' : ploop n i m (EIf a a0 None) r0 = POk t rest).
        { destruct r0 as [|k r0]; [exact K0|]. destruct k; try exact K0. discriminate Eh. }
        apply (Hfin i m (EIf a a0 None)) in K'; auto.
        -- destruct K' as [K' G']. split; [|exact G'].
           rewrite <- K'. cbn [toks app]. repeat (rewrite <- app_assoc; cbn [app]). reflexivity.
        -- cbn [wf]. split; [split; apply Gc|]. split; [apply Gt|]. exact I.
        -- destruct Gt as (_ & _ & _ & (Gs & Gp)). repeat split.
           ++ intros o nl r E. apply Gs in E. lia.
           ++ congruence.
           ++ intros E'. destruct r0 as [|k r0]; [discriminate|]. cbn in E'.
              injection E' as ->. discriminate Eh.
    + destruct ts as [|k ts]; [discriminate|]. destruct k; try discriminate.
      destruct (match ts with TRp :: _ => true | _ => false end) eqn:Eh.
      * destruct ts as [|k ts]; [discriminate|]. destruct k; try discriminate Eh.
        ok E. apply Hexp in H; [|lvl]. destruct H as [-> Gb].
        apply (Hfin i m (EFun [] a)) in K; auto.
        -- cbn [wf]. split; [exact I|apply Gb].
        -- apply good_head with (b := a); auto.
      * assert (E' : pbind (pparams n ts) (fun ps r =>
            match r with
            | TRp :: r => pbind (pexp n i 0 r) (fun b r => ploop n i m (EFun ps b) r)
            | _ => PErr
            end) = POk t rest).
        { destruct ts as [|k ts]; [exact E|]. destruct k; try exact E. discriminate Eh. }
        clear E. ok E'. apply Hparams in H. destruct H as (-> & Hne & Hw).
        destruct r as [|k r]; [discriminate|]. destruct k; try discriminate.
        ok K. apply Hexp in H; [|lvl]. destruct H as [-> Gb].
        apply (Hfin i m (EFun a a0)) in K0; auto.
        -- destruct K0 as [K' G']. split; [|exact G'].
           rewrite <- K'. cbn [toks app]. rewrite <- app_assoc. reflexivity.
        -- cbn [wf]. split; [apply wf_params_Forall; exact Hw|apply Gb].
        -- apply good_head with (b := a0); auto.
    + destruct ts as [|k ts]; [discriminate|]. destruct k; try discriminate.
      destruct ts as [|k ts]; [discriminate|]. destruct k as [v| | | | | | | | | | | | | | | | | | ]; try discriminate.
      destruct v as [v| | | | | | | |]; try discriminate.
      destruct ts as [|k ts]; [discriminate|]. destruct k; try discriminate.
      ok E. apply Hexp in H; [|lvl]. destruct H as [-> Gc].
      destruct r as [|k r]; [discriminate|]. destruct k; try discriminate.
      ok K. apply Hexp in H; [|lvl]. destruct H as [-> Gb].
      apply (Hfin i m (EFor v a a0)) in K0; auto.
      * destruct K0 as [K' G']. split; [|exact G'].
        rewrite <- K'. cbn [toks app]. rewrite <- app_assoc. reflexivity.
      * cbn [wf]. split; [split; apply Gc|apply Gb].
      * apply good_head with (b := a0); auto.
    + destruct ts as [|k ts]; [discriminate|]. destruct k; try discriminate.
      ok E. apply Hexp in H; [|lvl]. destruct H as [-> Gc].
      destruct r as [|k r]; [discriminate|]. destruct k; try discriminate.
      ok K. apply Hexp in H; [|lvl]. destruct H as [-> Gb].
      apply (Hfin i m (EWhile a a0)) in K0; auto.
      * destruct K0 as [K' G']. split; [|exact G'].
        rewrite <- K'. cbn [toks app]. rewrite <- app_assoc. reflexivity.
      * cbn [wf]. split; [split; apply Gc|apply Gb].
      * apply good_head with (b := a0); auto.
    + ok E. apply Hexp in H; [|lvl]. destruct H as [-> Gb].
      apply (Hfin i m (ERepeat a)) in K; auto.
      * cbn [wf]. apply Gb.
      * apply good_head with (b := a); auto.
  - intros i m l ts t rest Hw Hm He E. cbn [ploop] in E.
    destruct (next_op i ts) as [[[o nl] r]|] eqn:En.
    + destruct (next_op_split _ _ _ _ _ En) as (-> & Hnl & Hp).
      destruct (m <=? lbp o) eqn:Em.
      * apply Nat.leb_le in Em.
        destruct (is_cmp o && cmp_top l) eqn:Ec; [discriminate|].
        ok E. apply Hexp in H; [|pose proof (rbp_lt o); lia]. destruct H as [-> (G1 & G2 & (G3 & G3' & G3'') & (G4 & G5))].
        apply Hloop in K.
        -- destruct K as [K G']. split; [|exact G'].
           rewrite <- K. cbn [toks]. rewrite <- !app_assoc. reflexivity.
        -- cbn [wf]. destruct He as (He & _ & _). specialize (He _ _ _ En). repeat split; auto.
        -- cbn [lmin]. lia.
        -- repeat split.
           ++ intros o' nl' r' E'. cbn [rmin]. pose proof (G3 _ _ _ E'). pose proof (G4 _ _ _ E'). lia.
           ++ intros E'. congruence.
           ++ intros E'. cbn [opens]. auto.
      * apply Nat.leb_gt in Em. injection E as <- <-. split; [reflexivity|].
        split; [exact Hw|]. split; [exact Hm|]. split; [exact He|]. split; [|exact Hp].
        intros o' nl' r' E'. rewrite En in E'. injection E' as <- <- <-. exact Em.
    + assert (Hstop : postfix ts = false -> POk l ts = POk t rest ->
                toks l ++ ts = toks t ++ rest /\ good i m t rest).
      { intros Hp E'. injection E' as <- <-. split; [reflexivity|].
        split; [exact Hw|]. split; [exact Hm|]. split; [exact He|]. split; [|exact Hp].
        intros o' nl' r' E'. congruence. }
      assert (Hprim : postfix ts = true -> primary l = true).
      { intros Hp. destruct He as (_ & He & _). apply rmin_primary. auto. }
      destruct ts as [|k ts]; [apply Hstop; auto|].
      destruct k as [a| |o| | |d|d| | | | |o x| | | | | | | ]; try (apply Hstop; [reflexivity|exact E]).
      * specialize (Hprim eq_refl).
        destruct (match ts with TRp :: _ => true | _ => false end) eqn:Eh.
        -- destruct ts as [|k ts]; [discriminate|]. destruct k; try discriminate Eh.
           apply Hloop in E.
           ++ destruct E as [E G']. split; [|exact G']. rewrite <- E.
              cbn [toks map sep app]. rewrite <- app_assoc. reflexivity.
           ++ cbn [wf fold_right]. repeat split; auto. discriminate.
           ++ rewrite primary_lmin in Hm by auto. exact Hm.
           ++ apply ends_primary; reflexivity.
        -- assert (E' : pbind (pargs n ts) (fun a r =>
                match r with TRp :: r => ploop n i m (ECall l a) r | _ => PErr end) = POk t rest).
           { destruct ts as [|k ts]; [exact E|]. destruct k; try exact E. discriminate Eh. }
           clear E. ok E'. apply Hargs in H. destruct H as (-> & Hne & Hwa).
           destruct r as [|k r]; [discriminate|]. destruct k; try discriminate.
           apply Hloop in K.
           ++ destruct K as [K G']. split; [|exact G']. rewrite <- K.
              cbn [toks]. rewrite <- app_assoc. cbn [app]. rewrite <- app_assoc. reflexivity.
           ++ cbn [wf]. split; [exact Hw|]. split; [exact Hprim|]. split.
              ** intros ->. cbn in Eh. discriminate.
              ** apply wf_args_Forall. exact Hwa.
           ++ rewrite primary_lmin in Hm by auto. exact Hm.
           ++ apply ends_primary; reflexivity.
      * specialize (Hprim eq_refl).
        destruct (match ts with TRb _ :: _ => true | _ => false end) eqn:Eh.
        -- destruct ts as [|k ts]; [discriminate|]. destruct k; try discriminate Eh.
           destruct (Bool.eqb d double) eqn:Ed; [|discriminate]. apply Bool.eqb_prop in Ed. subst double.
           apply Hloop in E.
           ++ destruct E as [E G']. split; [|exact G']. rewrite <- E.
              cbn [toks map sep app]. rewrite <- app_assoc. reflexivity.
           ++ cbn [wf fold_right]. repeat split; auto. discriminate.
           ++ rewrite primary_lmin in Hm by auto. exact Hm.
           ++ apply ends_primary; reflexivity.
        -- assert (E' : pbind (pargs n ts) (fun a r =>
                match r with
                | TRb d' :: r => if Bool.eqb d d' then ploop n i m (ESub d l a) r else PErr
                | _ => PErr end) = POk t rest).
           { destruct ts as [|k ts]; [exact E|]. destruct k; try exact E. discriminate Eh. }
           clear E. ok E'. apply Hargs in H. destruct H as (-> & Hne & Hwa).
           destruct r as [|k r]; [discriminate|]. destruct k; try discriminate.
           destruct (Bool.eqb d double) eqn:Ed; [|discriminate]. apply Bool.eqb_prop in Ed. subst double.
           apply Hloop in K.
           ++ destruct K as [K G']. split; [|exact G']. rewrite <- K.
              cbn [toks]. rewrite <- app_assoc. cbn [app]. rewrite <- app_assoc. reflexivity.
           ++ cbn [wf]. split; [exact Hw|]. split; [exact Hprim|]. split.
              ** intros ->. cbn in Eh. discriminate.
              ** apply wf_args_Forall. exact Hwa.
           ++ rewrite primary_lmin in Hm by auto. exact Hm.
           ++ apply ends_primary; reflexivity.
      * specialize (Hprim eq_refl). apply Hloop in E.
        -- destruct E as [E G']. split; [|exact G']. rewrite <- E.
           cbn [toks]. rewrite <- app_assoc. reflexivity.
        -- cbn [wf]. auto.
        -- rewrite primary_lmin in Hm by auto. exact Hm.
        -- apply ends_primary; reflexivity.
  - intros ts args rest E. cbn [pargs] in E.
    destruct (match ts with
              | TAtom (AId x) :: TEq :: r => (Some x, r)
              | _ => (None, ts)
              end) as [nm ts1] eqn:Enm.
    assert (Ets : ts = name_toks nm ++ ts1).
    { destruct ts as [|k ts]; [injection Enm as <- <-; reflexivity|].
      destruct k as [a| | | | | | | | | | | | | | | | | | ]; try (injection Enm as <- <-; reflexivity).
      destruct a; try (injection Enm as <- <-; reflexivity).
      destruct ts as [|k ts]; [injection Enm as <- <-; reflexivity|].
      destruct k as [| |o| | | | | | | | | | | | | | | | ]; try (injection Enm as <- <-; reflexivity).
      destruct o; injection Enm as <- <-; reflexivity. }
    clear Enm. subst ts. ok E.
    assert (Hv : ts1 = opt_toks a ++ r /\ owf a).
    { assert (D : (exists e, a = Some e /\ pexp n true arg_level ts1 = POk e r) \/ (a = None /\ r = ts1)).
      { assert (D' : pbind (pexp n true arg_level ts1) (fun e r => POk (Some e) r) = POk a r \/
                     POk None ts1 = POk a r).
        { destruct ts1 as [|k ts1]; [left; exact H|]. destruct k; auto. }
        destruct D' as [D'|D'].
        - ok D'. injection K0 as <- <-. left. eauto.
        - injection D' as <- <-. auto. }
      destruct D as [(e & -> & D)|[-> ->]].
      - apply Hexp in D; [|lvl]. destruct D as [-> G]. split; [reflexivity|]. split; apply G.
      - split; [reflexivity|exact I]. }
    destruct Hv as [-> Hv].
    destruct (match r with TComma :: _ => true | _ => false end) eqn:Eh.
    + destruct r as [|k r]; [discriminate|]. destruct k; try discriminate Eh.
      ok K. injection K0 as <- <-. apply Hargs in H0. destruct H0 as (-> & Hne & Hwa).
      split; [|split; [discriminate|constructor; auto]].
      unfold args_toks. destruct a0 as [|x l]; [congruence|].
      cbn [map]. rewrite sep_cons2. change (arg_toks (nm, a)) with (name_toks nm ++ opt_toks a).
      rewrite <- !app_assoc. reflexivity.
    + assert (K' : POk [(nm, a)] r = POk args rest).
      { destruct r as [|k r]; [exact K|]. destruct k; try exact K. discriminate Eh. }
      injection K' as <- <-. split; [|split; [discriminate|constructor; auto]].
      unfold args_toks. cbn [map sep]. unfold arg_toks. cbn [fst snd].
      rewrite <- app_assoc. reflexivity.
  - intros ts ps rest E. cbn [pparams] in E.
    destruct ts as [|k ts]; [discriminate|]. destruct k as [a| | | | | | | | | | | | | | | | | | ]; try discriminate.
    destruct a as [x| | | | | | | |]; try discriminate. ok E.
    assert (Hv : ts = (match a with Some d => TEq :: toks d | None => [] end) ++ r /\ owf a).
    { destruct (match ts with TEq :: _ => true | _ => false end) eqn:Eh.
      - destruct ts as [|k ts]; [discriminate|]. destruct k as [| |o| | | | | | | | | | | | | | | | ]; try discriminate Eh.
        destruct o; try discriminate Eh. ok H. injection K0 as <- <-. apply Hexp in H0; [|lvl]. destruct H0 as [-> G].
        split; [reflexivity|split; apply G].
      - assert (H' : POk None ts = POk a r).
        { destruct ts as [|k ts]; [exact H|].
          destruct k as [| |o| | | | | | | | | | | | | | | | ]; try exact H.
          destruct o; try exact H. discriminate Eh. }
        injection H' as <- <-. split; [reflexivity|exact I]. }
    destruct Hv as [-> Hv].
    destruct (match r with TComma :: _ => true | _ => false end) eqn:Eh.
    + destruct r as [|k r]; [discriminate|]. destruct k; try discriminate Eh.
      ok K. injection K0 as <- <-. apply Hparams in H0. destruct H0 as (-> & Hne & Hwa).
      split; [|split; [discriminate|constructor; auto]].
      unfold params_toks. destruct a0 as [|y l]; [congruence|].
      cbn [map]. rewrite sep_cons2. unfold param_toks at 3. cbn [fst snd app].
      rewrite <- !app_assoc. reflexivity.
    + assert (K' : POk [(x, a)] r = POk ps rest).
      { destruct r as [|k r]; [exact K|]. destruct k; try exact K. discriminate Eh. }
      injection K' as <- <-. split; [|split; [discriminate|constructor; auto]].
      reflexivity.
  - intros ts es rest E. cbn [pseq] in E. ok E. apply Hexp in H; [|lvl]. destruct H as [-> G].
    destruct (match r with TNl :: _ => true | _ => false end) eqn:Eh.
    + destruct r as [|k r]; [discriminate|]. destruct k; try discriminate Eh.
      ok K. injection K0 as <- <-. apply Hseq in H. destruct H as (-> & Hne & Hwa).
      split; [|split; [discriminate|constructor; [apply G|auto]]].
      destruct a0 as [|x l]; [congruence|]. cbn [map]. rewrite sep_cons2.
      rewrite <- !app_assoc. reflexivity.
    + assert (K' : POk [a] r = POk es rest).
      { destruct r as [|k r]; [exact K|]. destruct k; try exact K. discriminate Eh. }
      injection K' as <- <-. split; [|split; [discriminate|constructor; [apply G|auto]]].
      reflexivity.
Qed.

(** What R reads is a well-formed program with that text. *)
Theorem reads_wf : forall ts p, reads ts p -> ts = prog_toks p /\ Forall (wf false) p.
Proof.
  intros ts p [n H]. unfold pprog in H. destruct ts as [|k ts].
  - injection H as <-. split; [reflexivity|constructor].
  - ok H. destruct r; [|discriminate]. injection K as <-.
    apply (sound n) in H0. destruct H0 as (E & _ & Hw). rewrite app_nil_r in E. auto.
Qed.

Theorem reads_iff : forall ts p, reads ts p <-> ts = prog_toks p /\ Forall (wf false) p.
Proof.
  intros ts p. split; [apply reads_wf|]. intros [-> H]. apply wf_reads. exact H.
Qed.
