(** Two places in the same statement, and what the one looks like when the other changes. *)
From Verif Require Import Spec.RPass Proofs.TextProofs Proofs.RParse Proofs.RContext Proofs.RCongruence Proofs.RAlike.

(** ** Two frames of the same expression *)
Lemma mid_mid : forall {A} (p1 p2 q1 q2 : list A) x y, p1 ++ x :: q1 = p2 ++ y :: q2 ->
  (p1 = p2 /\ x = y /\ q1 = q2) \/ (exists m, p2 = p1 ++ x :: m /\ q1 = m ++ y :: q2) \/ (exists m, p1 = p2 ++ y :: m /\ q2 = m ++ x :: q1).
Proof.
  induction p1 as [|a p1 IH]; intros [|b p2] q1 q2 x y H; cbn [app] in H.
  - injection H as <- <-. auto.
  - injection H as <- ->. right; left. exists p2. auto.
  - injection H as <- <-. right; right. exists p1. auto.
  - injection H as <- H. destruct (IH _ _ _ _ _ H) as [(-> & -> & ->)|[(m & -> & ->)|(m & -> & ->)]]; [auto|right; left; exists m; auto|right; right; exists m; auto].
Qed.
Definition two (f1 : frame) (a : expr) (f2 : frame) (b : expr) : Prop :=
  (f1 = f2 /\ a = b) \/
  (forall b', exists f1', fill f1' a = fill f2 b' /\ frame_pre f1' = frame_pre f1 /\ bare_frame f1' = bare_frame f1) \/
  length (frame_pre f2) + length (toks b) <= length (frame_pre f1).
Lemma sep_before_app : forall s a b, sep_before s (a ++ b) = sep_before s a ++ sep_before s b.
Proof. intros s a b. unfold sep_before. rewrite map_app, concat_app. reflexivity. Qed.
Ltac lens := repeat (rewrite ?app_length, ?map_app, ?sep_before_app in *; cbn [length app map] in *); unfold arg, param in *.
Ltac later f := exists f; split; [cbn [fill]|split; [reflexivity|]].
Ltac earlier := right; right; cbn [frame_pre]; lens; try lia.
Lemma fill_two : forall f1 a f2 b, fill f1 a = fill f2 b -> two f1 a f2 b.
Proof.
  intros f1 a f2 b H. unfold two.
  destruct f1 as [ |u|o nl r|o nl l|args|f pre n post|d args|d f pre n post|o n|t el|c el|c t|pre n post bd|ps|v bd|v s|bd|c| |pre post];
  destruct f2 as [ |u2|o2 nl2 r2|o2 nl2 l2|args2|f2 pre2 n2 post2|d2 args2|d2 f2 pre2 n2 post2|o2 n2|t2 el2|c2 el2|c2 t2|pre2 n2 post2 bd2|ps2|v2 bd2|v2 s2|bd2|c2| |pre2 post2];
    cbn [fill] in H; try discriminate H; injection H; clear H; intros; subst; try solve [left; split; reflexivity].
  - right; left; intros b'; later (FBinL o2 nl2 b'); reflexivity.
  - earlier.
  - right; left; intros b'; later (FCallF (pre2 ++ (n2, Some b') :: post2)); [reflexivity|]. cbn [bare_frame]. rewrite !map_app. reflexivity.
  - earlier.
  - destruct (mid_mid _ _ _ _ _ _ H) as [(-> & E & ->)|[(m & -> & ->)|(m & -> & ->)]].
    + injection E as -> ->. left. auto.
    + right; left; intros b'; later (FCallA f2 pre n (m ++ (n2, Some b') :: post2)); [rewrite <- app_assoc; reflexivity|]. cbn [bare_frame]. rewrite !map_app. reflexivity.
    + earlier. unfold arg_toks at 3, sep_before at 3. cbn [fst snd opt_toks map concat]. lens. lia.
  - right; left; intros b'; later (FSubX d2 (pre2 ++ (n2, Some b') :: post2)); [reflexivity|]. cbn [bare_frame]. rewrite !map_app. reflexivity.
  - earlier.
  - destruct (mid_mid _ _ _ _ _ _ H) as [(-> & E & ->)|[(m & -> & ->)|(m & -> & ->)]].
    + injection E as -> ->. left. auto.
    + right; left; intros b'; later (FSubA d2 f2 pre n (m ++ (n2, Some b') :: post2)); [rewrite <- app_assoc; reflexivity|]. cbn [bare_frame]. rewrite !map_app. reflexivity.
    + earlier. unfold arg_toks at 3, sep_before at 3. cbn [fst snd opt_toks map concat]. lens. lia.
  - right; left; intros b'; later (FIfC b' el2); reflexivity.
  - right; left; intros b'; later (FIfC t2 (Some b')); reflexivity.
  - earlier.
  - right; left; intros b'; later (FIfT c2 (Some b')); reflexivity.
  - earlier.
  - earlier.
  - destruct (mid_mid _ _ _ _ _ _ H0) as [(-> & E & ->)|[(m & -> & ->)|(m & -> & ->)]].
    + injection E as -> ->. left. auto.
    + right; left; intros b'; later (FFunP pre n (m ++ (n2, Some b') :: post2) bd2); [rewrite <- app_assoc; reflexivity|]. cbn [bare_frame]. rewrite !map_app. reflexivity.
    + earlier. unfold param_toks at 3, sep_before at 3. cbn [fst snd opt_toks map concat]. lens. lia.
  - right; left; intros b'; later (FFunP pre n post b'); reflexivity.
  - earlier. unfold params_toks. lens. cbn [map]. rewrite sep_app. lens. fold param_toks. unfold param_toks; cbn [fst snd length]. lens. lia.
  - right; left; intros b'; later (FForS v2 b'); reflexivity.
  - earlier.
  - right; left; intros b'; later (FWhileC b'); reflexivity.
  - earlier.
  - destruct (mid_mid _ _ _ _ _ _ H) as [(-> & -> & ->)|[(m & -> & ->)|(m & -> & ->)]].
    + left. auto.
    + right; left; intros b'; later (FBraces pre (m ++ b' :: post2)); [rewrite <- app_assoc; reflexivity|]. cbn [bare_frame]. rewrite !map_app. reflexivity.
    + earlier. unfold sep_before at 3. cbn [map concat]. lens. lia.
Qed.

Lemma plug_last : forall F f e, plug (F ++ [f]) e = fill f (plug F e).
Proof. induction F as [|g F IH]; intros f e; [reflexivity|]. cbn [app plug]. apply IH. Qed.
Lemma pre_last : forall F f, pre_toks (F ++ [f]) = frame_pre f ++ pre_toks F.
Proof. induction F as [|g F IH]; intros f; cbn [app pre_toks]; [rewrite app_nil_r; reflexivity|]. rewrite IH, app_assoc. reflexivity. Qed.
Lemma toks_some : forall e, 1 <= length (toks e).
Proof. intros e. destruct (toks_head e) as (k & r & E & _). rewrite E. cbn [length]. lia. Qed.
Lemma plug_len : forall F e, length (pre_toks F) + length (toks e) <= length (toks (plug F e)).
Proof. intros F e. rewrite plug_toks, !app_length. lia. Qed.
Lemma plug_two : forall F1 N1 F2 N2, plug F1 N1 = plug F2 N2 -> length (pre_toks F1) + length (toks N1) <= length (pre_toks F2) ->
  forall N2', exists F1', plug F1' N1 = plug F2 N2' /\ pre_toks F1' = pre_toks F1 /\ alike F1' F1.
Proof.
  induction F1 as [|f1 F1 IH] using rev_ind; intros N1 F2 N2 H L N2'.
  - cbn [plug] in H. pose proof (plug_len F2 N2) as G. rewrite <- H in G. pose proof (toks_some N2). cbn [pre_toks length] in L. lia.
  - destruct F2 as [|f2 F2 _] using rev_ind.
    + pose proof (toks_some N1). cbn [pre_toks length] in L. lia.
    + rewrite !plug_last in H. rewrite !pre_last, !app_length in L. destruct (fill_two _ _ _ _ H) as [[-> E]|[G|G]].
      * destruct (IH N1 F2 N2 E ltac:(lia) N2') as (F1' & E1 & E2 & E3). exists (F1' ++ [f2]). rewrite !plug_last, !pre_last, E1, E2.
        split; [reflexivity|]. split; [reflexivity|]. unfold alike in *. rewrite !map_app, E3. reflexivity.
      * destruct (G (plug F2 N2')) as (f1' & E1 & E2 & E3). exists (F1 ++ [f1']). rewrite !plug_last, !pre_last, E2. split; [exact E1|]. split; [reflexivity|].
        unfold alike. rewrite !map_app. cbn [map]. rewrite E3. reflexivity.
      * pose proof (plug_len F2 N2). pose proof (toks_some N2). lia.
Qed.
