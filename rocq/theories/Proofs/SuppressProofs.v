From Verif Require Import Model.Text Model.Base Model.Rules Model.Directive Model.Driver Model.Suppress
  Spec.DirectiveSpec Spec.SuppressSpec Proofs.TextProofs Proofs.RulesProofs Proofs.DirectiveProofs.

(** ** The traversal is a fold over the visits *)
Definition act (v : visit) (k : collector) : option collector :=
  match v_role v with
  | Plain top => process_comment (v_comment v) (v_node v) top false (v_level v) k
  | Eol => process_comment (v_comment v) (v_node v) false true (v_level v) k
  | Header full => Some (if full then k else push_blanket (v_range v) k)
  | Item =>
      match parse_array_item (c_text (v_comment v)) with
      | Some (PValid (Dir _ r)) => Some (push_chunk (Wide r (v_range v)) (set_valid k))
      | Some PMissing => Some (push_unexplained (v_range v) k)
      | Some PMisnamed => Some (push_misnamed (v_range v) k)
      | _ => Some k
      end
  end.
Fixpoint run (vs : list visit) (k : collector) : option collector :=
  match vs with [] => Some k | v :: r => obind (act v k) (run r) end.
Lemma run_app a b k : run (a ++ b) k = obind (run a k) (run b).
Proof. revert k; induction a as [|v a IH]; intros k; cbn; auto. destruct (act v k); cbn; auto. Qed.

Lemma item_results t v : parse_array_item t = Some v ->
  v = PMissing \/ v = PMisnamed \/ exists r, v = PValid (Dir KChunk r).
Proof.
  intros H. apply parse_item_iff in H. destruct H as (i & _ & H).
  destruct (parse_rule_with_explanation i); cbn in H; injection H as <- || discriminate; eauto.
Qed.

Lemma array_items_spec nr level l : forall found k found' rest k',
  array_items l found k = (found', rest, k') ->
  exists pre, l = pre ++ rest /\ forallb is_item pre = true /\ starts_item rest = false /\
    found' = found || negb (is_nil pre) /\
    run (map (at_node nr level) (map (fun c => (c, Item)) pre)) k = Some k'.
Proof.
  induction l as [|c l IH]; intros found k found' rest k' H; cbn [array_items] in H.
  - injection H as <- <- <-. exists []. cbn. now rewrite orb_false_r.
  - destruct (parse_array_item (c_text c)) as [p|] eqn:P.
    + assert (Hi : is_item c = true) by (unfold is_item; now rewrite P).
      assert (HA : forall k0, act (at_node nr level (c, Item)) k0 = match p with PValid (Dir _ r) => Some (push_chunk (Wide r (c_range c)) (set_valid k0)) | PMissing => Some (push_unexplained (c_range c) k0) | PMisnamed => Some (push_misnamed (c_range c) k0) | _ => Some k0 end) by (intros; unfold act; cbn [at_node v_role v_comment fst snd]; rewrite P; destruct p as [[]| | |]; reflexivity).
      destruct (item_results _ _ P) as [E|[E|(r & E)]]; subst p; cbv beta iota in H;
        apply IH in H; destruct H as (pre & -> & Hp & Hs & -> & Hr);
        exists (c :: pre); cbn [app forallb map run is_nil negb]; rewrite HA, Hi, Hp; cbn [obind andb];
        (split; [reflexivity|split; [reflexivity|split; [exact Hs|split; [cbn; now rewrite ?orb_true_r|exact Hr]]]]).
    + injection H as <- <- <-. exists []. cbn [app forallb map run is_nil negb starts_item].
      unfold is_item. rewrite P, orb_false_r. auto.
Qed.

Lemma roles_items top pre rest : forallb is_item pre = true ->
  leading_roles top true (pre ++ rest) = map (fun c => (c, Item)) pre ++ leading_roles top true rest.
Proof.
  induction pre as [|c pre IH]; cbn; auto. intros H. apply andb_prop in H. destruct H as (H1 & H2).
  rewrite H1. cbn. now rewrite IH.
Qed.
Lemma roles_leave top rest : starts_item rest = false ->
  leading_roles top true rest = leading_roles top false rest.
Proof. destruct rest as [|c r]; cbn; auto. intros ->. reflexivity. Qed.

Lemma collect_leading_run nr top level : forall fuel l k, length l <= fuel ->
  collect_leading fuel l nr top level k
  = run (map (at_node nr level) (leading_roles top false l)) k.
Proof.
  induction fuel as [|fuel IH]; intros l k Hl; destruct l as [|c l]; cbn [length] in Hl; try (cbn; easy); try lia.
  cbn [collect_leading leading_roles andb]. destruct (is_array_header (c_text c)) eqn:Hh.
  - destruct (array_items l false k) as [[found rest] k'] eqn:A.
    destruct (array_items_spec nr level _ _ _ _ _ _ A) as (pre & -> & Hp & Hs & -> & Hr).
    rewrite roles_items by auto. rewrite roles_leave by auto.
    cbn [map run]. unfold act at 1. cbn [at_node v_role fst snd obind].
    rewrite map_app, run_app. rewrite IH by (rewrite app_length in Hl; lia).
    destruct pre as [|c0 pre].
    + cbn [map run] in Hr. injection Hr as <-. cbn [app map run obind is_nil negb orb]. rewrite Hs. reflexivity.
    + assert (Hsi : starts_item ((c0 :: pre) ++ rest) = true).
      { cbn in Hp |- *. now apply andb_prop in Hp. }
      rewrite Hsi. rewrite Hr. reflexivity.
  - cbn [map run]. unfold act at 1. cbn [at_node v_role v_comment v_node v_level fst snd].
    destruct (process_comment c nr top false level k); cbn [obind]; auto. apply IH. lia.
Qed.

Lemma same_line_defined src c : at_source src c -> exists b, is_same_line_as_code (c_range c) src = Some b.
Proof.
  intros (a & b & -> & ->). unfold is_same_line_as_code. cbn [fst].
  destruct (blen a =? 0); [eauto|]. rewrite bsplit_app. eauto.
Qed.

Lemma collect_trailing_run nr src level l : forall k, Forall (at_source src) l ->
  collect_trailing l nr src level k
  = run (map (at_node nr level) (map (fun c => (c, if end_of_line src c then Eol else Plain false)) l)) k.
Proof.
  induction l as [|c l IH]; intros k H; cbn [collect_trailing map run]; auto.
  inversion H as [|? ? Hc Hl]; subst. destruct (same_line_defined _ _ Hc) as (b & Hb).
  unfold end_of_line at 1. rewrite Hb. unfold act at 1. destruct b; cbn [at_node v_role v_comment v_node v_level fst snd];
    match goal with |- context [process_comment ?a ?b ?c ?d ?e ?f] => destruct (process_comment a b c d e f) end; cbn [obind]; auto.
Qed.
Lemma collect_dangling_run nr level l : forall k,
  collect_dangling l nr level k
  = run (map (at_node nr level) (map (fun c => (c, Plain false)) l)) k.
Proof.
  induction l as [|c l IH]; intros k; cbn [collect_dangling map run]; auto.
  unfold act at 1. cbn [at_node v_role v_comment v_node v_level fst snd].
  destruct (process_comment c nr false false level k); cbn [obind]; auto.
Qed.

Fixpoint node_rect' (P : node -> Prop)
  (H : forall r b l t d ch, Forall P ch -> P (Node r b l t d ch)) (n : node) {struct n} : P n :=
  match n with
  | Node r b l t d ch =>
      H r b l t d ch ((fix go (l : list node) : Forall P l :=
        match l with [] => Forall_nil P | c :: r => Forall_cons c (node_rect' P H c) (go r) end) ch)
  end.

Fixpoint visits_list (src : text) (l : list node) (top : bool) (level : nat) : list visit :=
  match l with
  | [] => []
  | c :: r => visits src c top (if node_braced c then S level else level) ++ visits_list src r false level
  end.
Lemma visits_eq src r b l t d ch top level :
  visits src (Node r b l t d ch) top level =
  map (at_node r level) (leading_roles top false l
     ++ map (fun c => (c, if end_of_line src c then Eol else Plain false)) t
     ++ map (fun c => (c, Plain false)) d) ++ visits_list src ch top level.
Proof.
  cbn [visits]. f_equal. revert top. induction ch as [|c ch IH]; intros top; cbn [visits_list]; auto. now rewrite <- IH.
Qed.

Lemma in_source_parts src r b l t d ch : in_source src (Node r b l t d ch) <->
  Forall (at_source src) l /\ Forall (at_source src) t /\ Forall (at_source src) d /\ Forall (in_source src) ch.
Proof.
  unfold in_source. cbn [comments_of]. rewrite !Forall_app.
  assert (E : Forall (at_source src) (flat_map comments_of ch) <-> Forall (fun n => Forall (at_source src) (comments_of n)) ch).
  { induction ch as [|c ch IH]; cbn; [split; auto|]. rewrite Forall_app, Forall_cons_iff, IH. tauto. }
  rewrite E. tauto.
Qed.

Lemma collect_run src n : forall top level k, in_source src n ->
  collect src n top level k = run (visits src n top level) k.
Proof.
  induction n as [r b l t d ch IH] using node_rect'. intros top level k Hs.
  apply in_source_parts in Hs. destruct Hs as (Hl & Ht & Hd & Hc).
  rewrite visits_eq. cbn [collect]. rewrite !map_app, <- !app_assoc, !run_app.
  rewrite collect_leading_run by lia.
  destruct (run (map (at_node r level) (leading_roles top false l)) k) as [k1|]; cbn [obind]; auto.
  rewrite run_app. rewrite collect_trailing_run by auto.
  match goal with |- context [run ?a k1] => destruct (run a k1) as [k2|] end; cbn [obind]; auto.
  rewrite run_app. rewrite collect_dangling_run.
  match goal with |- context [run ?a k2] => destruct (run a k2) as [k3|] end; cbn [obind]; auto.
  clear -IH Hc. revert top k3. induction ch as [|c ch IHc]; intros top k; cbn [visits_list run]; auto.
  inversion IH; subst. inversion Hc; subst. rewrite run_app. rewrite <- H1 by auto.
  match goal with |- obind ?a _ = _ => destruct a end; cbn [obind]; auto.
Qed.

(** ** What each visit adds to the lists *)
Definition vparse (v : visit) := parse_comment_directive (c_text (v_comment v)).
Definition vitem (v : visit) := parse_array_item (c_text (v_comment v)).
Definition o_file v := match v_role v, vparse v with
  | Plain true, Some (PValid (Dir KFile r)) => [Wide r (v_range v)] | _, _ => [] end.
Definition o_misplaced_file v := match v_role v, vparse v with
  | Plain false, Some (PValid (Dir KFile r)) => [v_range v] | _, _ => [] end.
Definition o_chunk v := match v_role v, vitem v with
  | Item, Some (PValid (Dir _ r)) => [Wide r (v_range v)] | _, _ => [] end.
Definition o_node v := match v_role v, vparse v with
  | Plain _, Some (PValid (Dir KIgnore r)) => [RSup (v_node v) r (v_range v)] | _, _ => [] end.
Definition o_blanket v := match v_role v with
  | Plain _ => match vparse v with Some PBlanket => [v_range v] | _ => [] end
  | Header false => [v_range v] | _ => [] end.
Definition o_invalid_chunk v := match v_role v, vparse v with
  | Plain _, Some (PValid (Dir KChunk r)) => [v_range v] | _, _ => [] end.
Definition o_unexplained v := match v_role v with
  | Plain _ => match vparse v with Some PMissing => [v_range v] | _ => [] end
  | Item => match vitem v with Some PMissing => [v_range v] | _ => [] end | _ => [] end.
Definition o_misnamed v := match v_role v with
  | Plain _ => match vparse v with Some PMisnamed => [v_range v] | _ => [] end
  | Item => match vitem v with Some PMisnamed => [v_range v] | _ => [] end | _ => [] end.
Definition o_misplaced v := match v_role v, vparse v with
  | Eol, Some _ => [v_range v] | _, _ => [] end.
Definition o_valid v := match v_role v with
  | Plain _ => match vparse v with Some (PValid _) => true | _ => false end
  | Item => match vitem v with Some (PValid _) => true | _ => false end
  | _ => false end.
(** Start ([true]) or end comment, with its key. *)
Definition o_br v : option (bool * (rule * nat)) := match v_role v, vparse v with
  | Plain _, Some (PValid (Dir KStart r)) => Some (true, (r, v_level v))
  | Plain _, Some (PValid (Dir KEnd r)) => Some (false, (r, v_level v)) | _, _ => None end.

Record brs := Brs { b_starts : list ((rule * nat) * range); b_regions : list range_sup; b_unmatched : list range }.
Definition bstep (v : visit) (s : brs) : option brs :=
  match o_br v with
  | None => Some s
  | Some (true, key) => Some (Brs (starts_insert key (v_range v) (b_starts s)) (b_regions s) (b_unmatched s))
  | Some (false, key) =>
      match starts_get key (b_starts s) with
      | None => Some (Brs (b_starts s) (b_regions s) (b_unmatched s ++ [v_range v]))
      | Some sr =>
          if fst sr <=? snd (v_range v) then
            Some (Brs (starts_remove key (b_starts s))
                    (b_regions s ++ [RSup (fst sr, snd (v_range v)) (fst key) sr]) (b_unmatched s))
          else None
      end
  end.
Definition brs_of (k : collector) : brs := Brs (starts k) (regions k) (unmatched_end k).

Lemma act_br v k : bstep v (brs_of k) = option_map brs_of (act v k).
Proof.
  unfold bstep, o_br, act, vparse.
  destruct (v_role v) as [top| |full|].
  - unfold process_comment, v_range. destruct (parse_comment_directive (c_text (v_comment v))) as [[[kd r]| | |]|]; cbn [option_map]; try reflexivity.
    destruct kd; try reflexivity.
    + destruct top; reflexivity.
    + cbn [brs_of b_starts set_valid starts regions unmatched_end b_regions b_unmatched].
      destruct (starts_get (r, v_level v) (starts k)) as [sr|]; [|reflexivity].
      unfold new_range. destruct (fst sr <=? snd (c_range (v_comment v))); reflexivity.
  - unfold process_comment. destruct (parse_comment_directive (c_text (v_comment v))); reflexivity.
  - destruct full; reflexivity.
  - destruct (parse_array_item (c_text (v_comment v))) as [[[]| | |]|]; reflexivity.
Qed.
Lemma act_lists v k k' : act v k = Some k' ->
  files k' = files k ++ o_file v /\ chunks k' = chunks k ++ o_chunk v /\ nodes k' = nodes k ++ o_node v /\
  blanket k' = blanket k ++ o_blanket v /\ invalid_chunk k' = invalid_chunk k ++ o_invalid_chunk v /\
  unexplained k' = unexplained k ++ o_unexplained v /\ misnamed k' = misnamed k ++ o_misnamed v /\
  misplaced_file k' = misplaced_file k ++ o_misplaced_file v /\ misplaced k' = misplaced k ++ o_misplaced v /\
  any_valid k' = any_valid k || o_valid v.
Proof.
  unfold act, o_file, o_chunk, o_node, o_blanket, o_invalid_chunk, o_unexplained, o_misnamed, o_misplaced_file, o_misplaced, o_valid, vparse, vitem, v_range.
  assert (N : forall A (l : list A), l ++ [] = l) by (intros; apply app_nil_r).
  destruct (v_role v) as [top| |full|].
  - unfold process_comment. destruct (parse_comment_directive (c_text (v_comment v))) as [[[kd r]| | |]|].
    + destruct kd.
      1: intros [= <-].
      2: intros [= <-].
      3: destruct top; intros [= <-].
      5: intros [= <-].
      6:{ cbn [set_valid starts]. destruct (starts_get (r, v_level v) (starts k)) as [sr|]; [destruct (new_range (fst sr) (snd (c_range (v_comment v))))|]; intros [= <-];
          destruct top; cbn; rewrite ?N, ?orb_true_r, ?orb_false_r; auto 12. }
      all: try destruct top; cbn; rewrite ?N, ?orb_true_r, ?orb_false_r; auto 12.
    + intros [= <-]. destruct top; cbn; rewrite ?N, ?orb_true_r, ?orb_false_r; auto 12.
    + intros [= <-]. destruct top; cbn; rewrite ?N, ?orb_true_r, ?orb_false_r; auto 12.
    + intros [= <-]. destruct top; cbn; rewrite ?N, ?orb_true_r, ?orb_false_r; auto 12.
    + intros [= <-]. destruct top; cbn; rewrite ?N, ?orb_true_r, ?orb_false_r; auto 12.
  - unfold process_comment. destruct (parse_comment_directive (c_text (v_comment v))); intros [= <-];
      cbn; rewrite ?N, ?orb_false_r; auto 12.
  - destruct full; intros [= <-]; cbn; rewrite ?N, ?orb_false_r; auto 12.
  - destruct (parse_array_item (c_text (v_comment v))) as [[[]| | |]|]; intros [= <-];
      cbn; rewrite ?N, ?orb_false_r, ?orb_true_r; auto 12.
Qed.
Lemma run_lists vs : forall k k', run vs k = Some k' ->
  files k' = files k ++ flat_map o_file vs /\ chunks k' = chunks k ++ flat_map o_chunk vs /\ nodes k' = nodes k ++ flat_map o_node vs /\
  blanket k' = blanket k ++ flat_map o_blanket vs /\ invalid_chunk k' = invalid_chunk k ++ flat_map o_invalid_chunk vs /\
  unexplained k' = unexplained k ++ flat_map o_unexplained vs /\ misnamed k' = misnamed k ++ flat_map o_misnamed vs /\
  misplaced_file k' = misplaced_file k ++ flat_map o_misplaced_file vs /\ misplaced k' = misplaced k ++ flat_map o_misplaced vs /\
  any_valid k' = any_valid k || existsb o_valid vs.
Proof.
  induction vs as [|v vs IH]; intros k k' H; cbn [run flat_map existsb] in *.
  - injection H as <-. rewrite !app_nil_r, orb_false_r. auto 12.
  - destruct (act v k) as [k1|] eqn:A; [|discriminate]. cbn [obind] in H. apply IH in H. apply act_lists in A.
    destruct A as (A1 & A2 & A3 & A4 & A5 & A6 & A7 & A8 & A9 & A10).
    destruct H as (B1 & B2 & B3 & B4 & B5 & B6 & B7 & B8 & B9 & B10).
    rewrite B1, B2, B3, B4, B5, B6, B7, B8, B9, B10, A1, A2, A3, A4, A5, A6, A7, A8, A9, A10.
    rewrite <- !app_assoc, <- orb_assoc. auto 12.
Qed.
Fixpoint brun (vs : list visit) (s : brs) : option brs :=
  match vs with [] => Some s | v :: r => obind (bstep v s) (brun r) end.
Lemma run_br vs : forall k, brun vs (brs_of k) = option_map brs_of (run vs k).
Proof.
  induction vs as [|v vs IH]; intros k; cbn [run brun]; auto.
  rewrite act_br. destruct (act v k); cbn [option_map obind]; auto.
Qed.
Lemma brun_app a b s : brun (a ++ b) s = obind (brun a s) (brun b).
Proof. revert s; induction a as [|v a IH]; intros s; cbn; auto. destruct (bstep v s); cbn; auto. Qed.

(** ** The pairing of start and end comments *)
Lemma rule_eqb_eq a b : rule_eqb a b = true <-> a = b.
Proof. unfold rule_eqb. rewrite teqb_eq. split; [apply rule_name_inj|congruence]. Qed.
Lemma key_eqb_eq a b : key_eqb a b = true <-> a = b.
Proof.
  unfold key_eqb. rewrite andb_true_iff, rule_eqb_eq, Nat.eqb_eq. destruct a, b; cbn. intuition congruence.
Qed.
Lemma key_eqb_refl k : key_eqb k k = true. Proof. now apply key_eqb_eq. Qed.
Lemma key_dec (a b : rule * nat) : {a = b} + {a <> b}.
Proof.
  destruct (key_eqb a b) eqn:E; [left; now apply key_eqb_eq|right]. intros H. apply key_eqb_eq in H. congruence.
Qed.
Lemma get_cons k e l : starts_get k (e :: l) = if key_eqb k (fst e) then Some (snd e) else starts_get k l.
Proof. unfold starts_get. cbn. now destruct (key_eqb k (fst e)). Qed.
Lemma get_remove k k' l : starts_get k (starts_remove k' l) = if key_eqb k k' then None else starts_get k l.
Proof.
  induction l as [|e l IH]; cbn [starts_remove filter].
  - now destruct (key_eqb k k').
  - fold (starts_remove k' l). destruct (key_eqb k' (fst e)) eqn:E; cbn [negb].
    + apply key_eqb_eq in E. rewrite IH, get_cons. rewrite <- E. now destruct (key_eqb k k').
    + rewrite !get_cons, IH. destruct (key_eqb k (fst e)) eqn:E2; auto.
      apply key_eqb_eq in E2. subst k. destruct (key_eqb (fst e) k') eqn:E3; auto.
      apply key_eqb_eq in E3. rewrite <- E3, key_eqb_refl in E. discriminate.
Qed.
Lemma get_insert k k' r l : starts_get k (starts_insert k' r l) = if key_eqb k k' then Some r else starts_get k l.
Proof.
  unfold starts_insert. rewrite get_cons. cbn [fst snd]. destruct (key_eqb k k') eqn:E; auto.
  rewrite get_remove, E. reflexivity.
Qed.
Definition keys_nodup (l : list ((rule * nat) * range)) := NoDup (map fst l).
Lemma remove_nodup k l : keys_nodup l -> keys_nodup (starts_remove k l) /\ ~ In k (map fst (starts_remove k l)).
Proof.
  unfold keys_nodup. induction l as [|e l IH]; cbn; [intros _; split; [constructor|auto]|].
  inversion 1 as [|? ? H1 H2]; subst. specialize (IH H2). destruct IH as (I1 & I2).
  destruct (key_eqb k (fst e)) eqn:E; cbn [negb]; auto. cbn. split.
  - constructor; auto. intros Hin. apply H1. apply in_map_iff in Hin. destruct Hin as (x & Hx & Hin).
    apply filter_In in Hin. apply in_map_iff. exists x. tauto.
  - intros [Hk|Hk]; auto. subst. rewrite key_eqb_refl in E. discriminate.
Qed.
Lemma insert_nodup k r l : keys_nodup l -> keys_nodup (starts_insert k r l).
Proof. intros H. apply remove_nodup with (k := k) in H. destruct H. unfold keys_nodup, starts_insert. cbn. constructor; auto. Qed.
Lemma in_starts l k r : keys_nodup l -> (In (k, r) l <-> starts_get k l = Some r).
Proof.
  unfold keys_nodup. induction l as [|[k' r'] l IH]; cbn [map fst]; [cbn; intuition discriminate|].
  inversion 1 as [|? ? H1 H2]; subst. rewrite get_cons. cbn [In fst snd].
  destruct (key_eqb k k') eqn:E.
  - apply key_eqb_eq in E. subst k'. split.
    + intros [[= <-]|Hin]; auto. exfalso. apply H1. apply in_map_iff. exists (k, r); auto.
    + intros [= ->]; auto.
  - rewrite <- IH by auto. split; auto. intros [[= <- <-]|Hin]; auto. rewrite key_eqb_refl in E. discriminate.
Qed.

(** [v] is a start, an end, or a start or end, of key [k]. *)
Definition is_start (k : rule * nat) v := o_br v = Some (true, k).
Definition is_end (k : rule * nat) v := o_br v = Some (false, k).
Definition is_br (k : rule * nat) v := is_start k v \/ is_end k v.
Definition none_of (k : rule * nat) (l : list visit) := Forall (fun v => ~ is_br k v) l.
(** The start comment open for [k] after [vs]. *)
Definition open (k : rule * nat) (vs : list visit) (s : visit) : Prop :=
  exists l1 l2, vs = l1 ++ s :: l2 /\ is_start k s /\ none_of k l2.
Definition pair_of (k : rule * nat) (vs : list visit) (s e : visit) : Prop :=
  exists l1 l2 l3, vs = l1 ++ s :: l2 ++ e :: l3 /\ is_start k s /\ is_end k e /\ none_of k l2.

Lemma none_snoc k l v : none_of k (l ++ [v]) <-> none_of k l /\ ~ is_br k v.
Proof. unfold none_of. rewrite Forall_app, Forall_cons_iff. intuition. Qed.
Lemma snoc_split {A} (vs : list A) v l1 s l2 : vs ++ [v] = l1 ++ s :: l2 ->
  (l2 = [] /\ vs = l1 /\ v = s) \/ exists l2', l2 = l2' ++ [v] /\ vs = l1 ++ s :: l2'.
Proof.
  intros H. induction l2 as [|a l2 _] using rev_ind.
  - apply app_inj_tail in H. left. intuition.
  - rewrite app_comm_cons, app_assoc in H. apply app_inj_tail in H. destruct H as (-> & ->). right. eauto.
Qed.
Lemma open_snoc k vs v s : open k (vs ++ [v]) s <-> (v = s /\ is_start k v) \/ (open k vs s /\ ~ is_br k v).
Proof.
  split.
  - intros (l1 & l2 & H & Hs & Hn). apply snoc_split in H. destruct H as [(-> & <- & <-)|(l2' & -> & ->)]; auto.
    right. apply none_snoc in Hn. destruct Hn. split; auto. exists l1, l2'. auto.
  - intros [(<- & H)|((l1 & l2 & -> & Hs & Hn) & H)].
    + exists vs, []. split; auto. split; auto. constructor.
    + exists l1, (l2 ++ [v]). rewrite <- app_assoc. split; auto. split; auto. apply none_snoc. auto.
Qed.
Lemma open_fun k vs s s' : open k vs s -> open k vs s' -> s = s'.
Proof.
  revert s s'. induction vs as [|v vs IH] using rev_ind.
  - intros s s' (l1 & l2 & H & _). destruct l1; discriminate.
  - intros s s' H H'. apply open_snoc in H, H'.
    destruct H as [(<- & H)|(H & Hn)], H' as [(<- & H')|(H' & Hn')]; auto.
    + exfalso. apply Hn'. left; auto.
    + exfalso. apply Hn. left; auto.
Qed.
Lemma pair_snoc k vs v s e : pair_of k (vs ++ [v]) s e <-> pair_of k vs s e \/ (v = e /\ is_end k e /\ open k vs s).
Proof.
  split.
  - intros (l1 & l2 & l3 & H & Hs & He & Hn). rewrite app_comm_cons, app_assoc in H.
    apply snoc_split in H. destruct H as [(-> & -> & ->)|(l3' & -> & ->)].
    + right. split; auto. split; auto. exists l1, l2. auto.
    + left. exists l1, l2, l3'. rewrite <- app_assoc. auto.
  - intros [(l1 & l2 & l3 & -> & Hs & He & Hn)|(-> & He & l1 & l2 & -> & Hs & Hn)].
    + exists l1, l2, (l3 ++ [v]). rewrite <- app_assoc. cbn. rewrite <- app_assoc. auto.
    + exists l1, l2, []. rewrite <- app_assoc. auto.
Qed.

Definition b0 : brs := Brs [] [] [].
Definition unmatched_end_of (k : rule * nat) (vs : list visit) (e : visit) : Prop :=
  exists l1 l2, vs = l1 ++ e :: l2 /\ is_end k e /\ forall s, ~ open k l1 s.
Lemma unmatched_snoc k vs v e : unmatched_end_of k (vs ++ [v]) e <->
  unmatched_end_of k vs e \/ (v = e /\ is_end k e /\ forall s, ~ open k vs s).
Proof.
  split.
  - intros (l1 & l2 & H & He & Hn). apply snoc_split in H. destruct H as [(-> & <- & <-)|(l2' & -> & ->)]; auto.
    left. exists l1, l2'. auto.
  - intros [(l1 & l2 & -> & He & Hn)|(<- & He & Hn)].
    + exists l1, (l2 ++ [v]). rewrite <- app_assoc. auto.
    + exists vs, []. auto.
Qed.

Record binv (vs : list visit) (s : brs) : Prop := {
  i_nodup : keys_nodup (b_starts s);
  i_starts : forall k r, starts_get k (b_starts s) = Some r <-> exists v, open k vs v /\ v_range v = r;
  i_regions : forall x, In x (b_regions s) <-> exists k a e, pair_of k vs a e /\
    x = RSup (fst (v_range a), snd (v_range e)) (fst k) (v_range a);
  i_unmatched : forall x, In x (b_unmatched s) <-> exists k e, unmatched_end_of k vs e /\ v_range e = x;
  i_le : forall k a e, pair_of k vs a e -> fst (v_range a) <= snd (v_range e) }.

Lemma br_excl k v : is_start k v -> is_end k v -> False.
Proof. unfold is_start, is_end. congruence. Qed.
Lemma start_key k k' v : is_start k v -> is_start k' v -> k = k'.
Proof. unfold is_start. congruence. Qed.
Lemma end_key k k' v : is_end k v -> is_end k' v -> k = k'.
Proof. unfold is_end. congruence. Qed.
Lemma not_br k v : o_br v = None -> ~ is_br k v.
Proof. unfold is_br, is_start, is_end. intuition congruence. Qed.

Lemma brun_inv vs : forall s, brun vs b0 = Some s -> binv vs s.
Proof.
  induction vs as [|v vs IH] using rev_ind; intros s H.
  - injection H as <-. split; cbn.
    + constructor.
    + intros k r. split; [discriminate|]. intros (v & (l1 & l2 & H & _) & _). destruct l1; discriminate.
    + intros x. split; [tauto|]. intros (k & a & e & (l1 & l2 & l3 & H & _) & _). destruct l1; discriminate.
    + intros x. split; [tauto|]. intros (k & e & (l1 & l2 & H & _) & _). destruct l1; discriminate.
    + intros k a e (l1 & l2 & l3 & H & _). destruct l1; discriminate.
  - rewrite brun_app in H. destruct (brun vs b0) as [s0|]; [|discriminate]. cbn [obind brun] in H.
    specialize (IH s0 eq_refl). destruct IH as [I1 I2 I3 I4 I5].
    destruct (bstep v s0) as [s1|] eqn:B; [|discriminate]. injection H as <-.
    unfold bstep in B. destruct (o_br v) as [[[] key]|] eqn:O.
    + (* start *)
      injection B as <-. assert (Hst : is_start key v) by exact O. split; cbn [b_starts b_regions b_unmatched].
      * now apply insert_nodup.
      * intros k r. rewrite get_insert. destruct (key_eqb k key) eqn:E.
        -- apply key_eqb_eq in E. subst k. split.
           ++ intros [= <-]. exists v. split; auto. apply open_snoc. auto.
           ++ intros (w & Hw & <-). apply open_snoc in Hw. destruct Hw as [(<- & _)|(_ & Hn)]; auto.
              exfalso. apply Hn. now left.
        -- rewrite I2. split; intros (w & Hw & <-); exists w; split; auto.
           ++ apply open_snoc. right. split; auto. intros [Hb|Hb].
              ** rewrite (start_key _ _ _ Hb Hst), key_eqb_refl in E. discriminate.
              ** unfold is_end in Hb. congruence.
           ++ apply open_snoc in Hw. destruct Hw as [(_ & Hb)|(Hw & _)]; auto.
              rewrite (start_key _ _ _ Hb Hst), key_eqb_refl in E. discriminate.
      * intros x. rewrite I3. split; intros (k & a & e & Hp & ->); exists k, a, e; split; auto; apply pair_snoc in Hp || apply pair_snoc; auto.
        destruct Hp as [|(<- & He & _)]; auto. unfold is_end in He. congruence.
      * intros x. rewrite I4. split; intros (k & e & Hp & <-); exists k, e; split; auto; apply unmatched_snoc in Hp || apply unmatched_snoc; auto.
        destruct Hp as [|(<- & He & _)]; auto. unfold is_end in He. congruence.
      * intros k a e Hp. apply pair_snoc in Hp. destruct Hp as [|(<- & He & _)]; eauto. unfold is_end in He. congruence.
    + (* end *)
      assert (Hen : is_end key v) by exact O.
      assert (Hns : forall k, ~ is_start k v) by (unfold is_start; congruence).
      destruct (starts_get key (b_starts s0)) as [sr|] eqn:G.
      * apply I2 in G. destruct G as (a0 & Ho & <-).
        destruct (fst (v_range a0) <=? snd (v_range v)) eqn:Le; [|discriminate]. apply Nat.leb_le in Le. injection B as <-.
        split; cbn [b_starts b_regions b_unmatched].
        -- now apply remove_nodup.
        -- intros k r. rewrite get_remove. destruct (key_eqb k key) eqn:E.
           ++ apply key_eqb_eq in E. subst k. split; [discriminate|]. intros (w & Hw & _).
              apply open_snoc in Hw. destruct Hw as [(_ & Hb)|(_ & Hn)]; [now apply Hns in Hb|]. exfalso. apply Hn. now right.
           ++ rewrite I2. split; intros (w & Hw & <-); exists w; split; auto.
              ** apply open_snoc. right. split; auto. intros [Hb|Hb]; [now apply Hns in Hb|].
                 rewrite (end_key _ _ _ Hb Hen), key_eqb_refl in E. discriminate.
              ** apply open_snoc in Hw. destruct Hw as [(_ & Hb)|(Hw & _)]; auto. now apply Hns in Hb.
        -- intros x. rewrite in_app_iff, I3. cbn [In]. split.
           ++ intros [(k & a & e & Hp & ->)|[<-|[]]].
              ** exists k, a, e. split; auto. apply pair_snoc. auto.
              ** exists key, a0, v. split; auto. apply pair_snoc. right. auto.
           ++ intros (k & a & e & Hp & ->). apply pair_snoc in Hp. destruct Hp as [Hp|(-> & He & Hop)].
              ** left. eauto 6.
              ** right. left. rewrite <- (end_key _ _ _ He Hen) in Ho. now rewrite (open_fun _ _ _ _ Hop Ho), (end_key _ _ _ He Hen).
        -- intros x. rewrite I4. split; intros (k & e & Hp & <-); exists k, e; split; auto; apply unmatched_snoc in Hp || apply unmatched_snoc; auto.
           destruct Hp as [|(<- & He & Hno)]; auto. exfalso. rewrite (end_key _ _ _ He Hen) in Hno. now apply (Hno a0).
        -- intros k a e Hp. apply pair_snoc in Hp. destruct Hp as [|(<- & He & Hop)]; eauto.
           rewrite (end_key _ _ _ He Hen) in Hop. now rewrite (open_fun _ _ _ _ Hop Ho).
      * injection B as <-.
        assert (Hno : forall w, ~ open key vs w).
        { intros w Hw. assert (starts_get key (b_starts s0) = Some (v_range w)) by (apply I2; eauto). congruence. }
        split; cbn [b_starts b_regions b_unmatched]; auto.
        -- intros k r. rewrite I2. split; intros (w & Hw & <-); exists w; split; auto.
           ++ apply open_snoc. right. split; auto. intros [Hb|Hb]; [now apply Hns in Hb|].
              rewrite (end_key _ _ _ Hb Hen) in Hw. now apply Hno in Hw.
           ++ apply open_snoc in Hw. destruct Hw as [(_ & Hb)|(Hw & _)]; auto. now apply Hns in Hb.
        -- intros x. rewrite I3. split; intros (k & a & e & Hp & ->); exists k, a, e; split; auto; apply pair_snoc in Hp || apply pair_snoc; auto.
           destruct Hp as [|(<- & He & Hop)]; auto. rewrite (end_key _ _ _ He Hen) in Hop. now apply Hno in Hop.
        -- intros x. rewrite in_app_iff, I4. cbn [In]. split.
           ++ intros [(k & e & Hp & <-)|[<-|[]]].
              ** exists k, e. split; auto. apply unmatched_snoc. auto.
              ** exists key, v. split; auto. apply unmatched_snoc. auto.
           ++ intros (k & e & Hp & <-). apply unmatched_snoc in Hp. destruct Hp as [Hp|(-> & He & _)]; eauto.
        -- intros k a e Hp. apply pair_snoc in Hp. destruct Hp as [|(<- & He & Hop)]; eauto.
           rewrite (end_key _ _ _ He Hen) in Hop. now apply Hno in Hop.
    + injection B as <-. assert (Hnb : forall k, ~ is_br k v) by (intros; now apply not_br).
      split; auto.
      * intros k r. rewrite I2. split; intros (w & Hw & <-); exists w; split; auto; apply open_snoc in Hw || apply open_snoc; auto.
        destruct Hw as [(_ & Hb)|(Hw & _)]; auto. exfalso. apply (Hnb k). now left.
      * intros x. rewrite I3. split; intros (k & a & e & Hp & ->); exists k, a, e; split; auto; apply pair_snoc in Hp || apply pair_snoc; auto.
        destruct Hp as [|(<- & He & _)]; auto. unfold is_end in He. congruence.
      * intros x. rewrite I4. split; intros (k & e & Hp & <-); exists k, e; split; auto; apply unmatched_snoc in Hp || apply unmatched_snoc; auto.
        destruct Hp as [|(<- & He & _)]; auto. unfold is_end in He. congruence.
      * intros k a e Hp. apply pair_snoc in Hp. destruct Hp as [|(<- & He & _)]; eauto. unfold is_end in He. congruence.
Qed.

(** The only crash: an end comment visited after, but standing before, its start comment. *)
Lemma brun_none vs : brun vs b0 = None <-> exists k a e, pair_of k vs a e /\ snd (v_range e) < fst (v_range a).
Proof.
  split.
  - induction vs as [|v vs IH] using rev_ind; [discriminate|]. rewrite brun_app. intros H.
    destruct (brun vs b0) as [s0|] eqn:R; cbn [obind brun] in H.
    + destruct (bstep v s0) as [s1|] eqn:B; [discriminate|]. apply brun_inv in R. destruct R as [_ I2 _ _ _].
      unfold bstep in B. destruct (o_br v) as [[[] key]|] eqn:O; try discriminate.
      destruct (starts_get key (b_starts s0)) as [sr|] eqn:G; [|discriminate]. apply I2 in G. destruct G as (a & Ho & <-).
      destruct (fst (v_range a) <=? snd (v_range v)) eqn:Le; [discriminate|]. apply Nat.leb_gt in Le.
      exists key, a, v. split; auto. apply pair_snoc. right. auto.
    + destruct (IH eq_refl) as (k & a & e & Hp & Hlt). exists k, a, e. split; auto. apply pair_snoc. auto.
  - intros (k & a & e & Hp & Hlt). destruct (brun vs b0) as [s|] eqn:R; auto. exfalso.
    apply brun_inv in R. pose proof (i_le _ _ R _ _ _ Hp). lia.
Qed.

(** ** The fast path *)
Lemma contains_sub p (a t b : text) : contains p t = true -> contains p (a ++ t ++ b) = true.
Proof.
  rewrite !contains_iff. intros (x & y & ->). exists (a ++ x), (y ++ b). now rewrite <- !app_assoc.
Qed.
Lemma no_directive src c : contains (lit "jarl-ignore") src = false -> at_source src c ->
  parse_comment_directive (c_text c) = None /\ is_array_header (c_text c) = false.
Proof.
  intros H (a & b & E & _). split.
  - destruct (parse_comment_directive (c_text c)) as [v|] eqn:P; auto. apply parse_contains in P.
    apply (contains_sub _ a _ b) in P. rewrite <- E in P. congruence.
  - destruct (is_array_header (c_text c)) eqn:P; auto. apply header_contains in P.
    apply (contains_sub _ a _ b) in P. rewrite <- E in P. congruence.
Qed.
Definition inert (v : visit) : Prop :=
  vparse v = None /\ match v_role v with Plain _ | Eol => True | _ => False end.
Lemma inert_run vs : Forall inert vs -> forall k, run vs k = Some k.
Proof.
  induction 1 as [|v vs (Hp & Hr) _ IH]; intros k; cbn [run]; auto.
  assert (A : act v k = Some k).
  { unfold act, process_comment, vparse in *. rewrite Hp. destruct (v_role v); tauto. }
  rewrite A. cbn. apply IH.
Qed.
Lemma roles_plain top l : Forall (fun c => is_array_header (c_text c) = false) l ->
  leading_roles top false l = map (fun c => (c, Plain top)) l.
Proof. induction 1 as [|c l H _ IH]; cbn; auto. rewrite H. now rewrite IH. Qed.
Lemma fast_inert src n : contains (lit "jarl-ignore") src = false -> forall top level, in_source src n ->
  Forall inert (visits src n top level).
Proof.
  intros Hc. induction n as [r b l t d ch IH] using node_rect'. intros top level Hs.
  apply in_source_parts in Hs. destruct Hs as (Hl & Ht & Hd & Hch).
  rewrite visits_eq. rewrite roles_plain.
  2:{ eapply Forall_impl; [|exact Hl]. intros c Hcs. now apply (no_directive src). }
  rewrite !map_app, !Forall_app. rewrite !map_map.
  assert (G : forall (f : comment -> role) l, (forall c, match f c with Plain _ | Eol => True | _ => False end) ->
    Forall (at_source src) l -> Forall inert (map (fun c => at_node r level (c, f c)) l)).
  { intros f l0 Hf H0. induction H0 as [|c l0 H1 _ IH0]; cbn [map]; constructor; auto.
    split; [now apply (no_directive src)|]. apply Hf. }
  repeat split.
  - apply (G (fun _ => Plain top)); auto.
  - apply (G (fun c => if end_of_line src c then Eol else Plain false)); auto. intros c. now destruct (end_of_line src c).
  - apply (G (fun _ => Plain false)); auto.
  - revert top. induction ch as [|c ch IHc]; intros top; cbn [visits_list]; [constructor|].
    inversion IH; subst. inversion Hch; subst. apply Forall_app. auto.
Qed.
Theorem fast_path_ok src n : in_source src n -> from_node n src = from_node_slow n src.
Proof.
  intros Hs. unfold from_node. destruct (contains (lit "jarl-ignore") src) eqn:C; auto.
  unfold from_node_slow. rewrite collect_run by auto. rewrite inert_run by now apply fast_inert. reflexivity.
Qed.

(** ** The manager in terms of the visits *)
Lemma says_br_start v r : says v KStart r <-> is_start (r, v_level v) v.
Proof.
  unfold says, is_start, o_br, vparse. split.
  - intros ((top & ->) & ->). reflexivity.
  - destruct (v_role v); try discriminate. destruct (parse_comment_directive _) as [[[kd r']| | |]|]; try discriminate.
    destruct kd; intros [= <-]; eauto.
Qed.
Lemma says_br_end v r : says v KEnd r <-> is_end (r, v_level v) v.
Proof.
  unfold says, is_end, o_br, vparse. split.
  - intros ((top & ->) & ->). reflexivity.
  - destruct (v_role v); try discriminate. destruct (parse_comment_directive _) as [[[kd r']| | |]|]; try discriminate.
    destruct kd; intros [= <-]; eauto.
Qed.
Lemma is_start_level k v : is_start k v -> snd k = v_level v.
Proof. unfold is_start, o_br. destruct (v_role v), (vparse v) as [[[[] r]| | |]|]; try discriminate; intros [= <-]; reflexivity. Qed.
Lemma is_end_level k v : is_end k v -> snd k = v_level v.
Proof. unfold is_end, o_br. destruct (v_role v), (vparse v) as [[[[] r]| | |]|]; try discriminate; intros [= <-]; reflexivity. Qed.
Lemma bracket_iff r level v : bracket_of r level v <-> is_br (r, level) v.
Proof.
  unfold bracket_of, is_br. rewrite says_br_start, says_br_end. split.
  - intros (<- & H). exact H.
  - intros H. assert (E : v_level v = level).
    { destruct H as [H|H]; [apply is_start_level in H|apply is_end_level in H]; symmetry; exact H. }
    rewrite E. auto.
Qed.
Lemma none_iff r level l : none_of (r, level) l <-> Forall (fun v => ~ bracket_of r level v) l.
Proof. unfold none_of. split; apply Forall_impl; intros v H; now rewrite bracket_iff in *. Qed.
Lemma region_iff vs r s e : region vs r s e <-> pair_of (r, v_level s) vs s e.
Proof.
  unfold region, pair_of. split.
  - intros (l1 & l2 & l3 & -> & Hs & He & Hl & Hn). exists l1, l2, l3. rewrite says_br_start in Hs.
    rewrite says_br_end, <- Hl in He. rewrite none_iff. auto.
  - intros (l1 & l2 & l3 & -> & Hs & He & Hn). exists l1, l2, l3. rewrite says_br_start. rewrite none_iff in Hn.
    pose proof (is_end_level _ _ He) as L. cbn in L. rewrite says_br_end, <- L. auto.
Qed.
Lemma pair_key k vs s e : pair_of k vs s e -> region vs (fst k) s e.
Proof.
  intros H. apply region_iff. destruct H as (l1 & l2 & l3 & -> & Hs & He & Hn).
  pose proof (is_start_level _ _ Hs) as L. destruct k as (r, lv). cbn in *. subst lv. exists l1, l2, l3. auto.
Qed.

(** What the manager built from the visits [vs] contains. *)
Record describes (vs : list visit) (m : manager) : Prop := {
  D_files : m_files m = flat_map o_file vs;
  D_chunks : m_chunks m = flat_map o_chunk vs;
  D_nodes : m_nodes m = flat_map o_node vs;
  D_blanket : m_blanket m = flat_map o_blanket vs;
  D_invalid : m_invalid_chunk m = flat_map o_invalid_chunk vs;
  D_unexplained : m_unexplained m = flat_map o_unexplained vs;
  D_misnamed : m_misnamed m = flat_map o_misnamed vs;
  D_mfile : m_misplaced_file m = flat_map o_misplaced_file vs;
  D_misplaced : m_misplaced m = flat_map o_misplaced vs;
  D_any : m_any m = false -> existsb o_valid vs = false;
  D_used : m_used m = [];
  D_regions : forall x, In x (m_regions m) <-> exists r s e, region vs r s e /\ x = RSup (region_range s e) r (v_range s);
  D_unend : forall x, In x (m_unmatched_end m) <-> exists k e, unmatched_end_of k vs e /\ v_range e = x;
  D_unstart : forall x, In x (m_unmatched_start m) <-> exists k s, open k vs s /\ v_range s = x;
  D_le : forall r s e, region vs r s e -> fst (v_range s) <= snd (v_range e) }.

Lemma from_node_describes src n m : in_source src n -> from_node n src = Some m ->
  describes (visits src n true 0) m.
Proof.
  intros Hs. rewrite fast_path_ok by auto. unfold from_node_slow. rewrite collect_run by auto.
  set (vs := visits src n true 0). destruct (run vs coll0) as [k|] eqn:R; [|discriminate]. cbn [obind]. intros [= <-].
  pose proof (run_br vs coll0) as B. rewrite R in B. cbn [option_map] in B. change (brs_of coll0) with b0 in B.
  apply brun_inv in B. destruct B as [I1 I2 I3 I4 I5]. cbn [brs_of b_starts b_regions b_unmatched] in *.
  apply run_lists in R. cbn [coll0 files chunks nodes blanket invalid_chunk unexplained misnamed misplaced_file misplaced any_valid app orb] in R.
  destruct R as (R1 & R2 & R3 & R4 & R5 & R6 & R7 & R8 & R9 & R10).
  split; cbn [m_files m_chunks m_nodes m_blanket m_invalid_chunk m_unexplained m_misnamed m_misplaced_file m_misplaced m_any m_used m_regions m_unmatched_end m_unmatched_start]; auto.
  - rewrite R10. intros H. apply orb_false_iff in H. tauto.
  - intros x. rewrite I3. split.
    + intros (kk & a & e & Hp & ->). exists (fst kk), a, e. split; auto. now apply pair_key.
    + intros (r & a & e & Hp & ->). apply region_iff in Hp. eexists _, a, e. split; [exact Hp|]. reflexivity.
  - intros x. rewrite in_map_iff. split.
    + intros ((kk & r) & <- & Hin). apply in_starts in Hin; auto. apply I2 in Hin. destruct Hin as (v & Hv & <-). eauto.
    + intros (kk & s & Ho & <-). exists (kk, v_range s). split; auto. apply in_starts; auto. apply I2. eauto.
  - intros r a e Hp. apply region_iff in Hp. eauto.
Qed.
Lemma from_node_none src n : in_source src n ->
  (from_node n src = None <-> exists r s e, region (visits src n true 0) r s e /\ snd (v_range e) < fst (v_range s)).
Proof.
  intros Hs. rewrite fast_path_ok by auto. unfold from_node_slow. rewrite collect_run by auto.
  set (vs := visits src n true 0). pose proof (run_br vs coll0) as B. change (brs_of coll0) with b0 in B.
  assert (E : obind (run vs coll0) (fun k : collector => Some k) = None <-> brun vs b0 = None).
  { rewrite B. destruct (run vs coll0); cbn; split; congruence. }
  transitivity (brun vs b0 = None).
  - rewrite <- E. destruct (run vs coll0); cbn; split; congruence.
  - rewrite brun_none. split.
    + intros (k & a & e & Hp & H). exists (fst k), a, e. split; auto. now apply pair_key.
    + intros (r & a & e & Hp & H). apply region_iff in Hp. eauto.
Qed.
