(** A file on which [--fix] never finishes. *)
From Verif Require Import Spec.RFile Spec.RWellFormed Proofs.TextProofs Proofs.RParse Proofs.RFuel Proofs.RLexProofs.

Definition hg := EAtom (AId (lit "grepl")).
Definition hvar (x : text) := EAtom (AId x).
Definition hfixed : option text := Some (lit "fixed").
Definition hinner : expr :=
  ECall hg [(None, Some (EAtom (AStr (lit "'b'")))); (None, Some (hvar (lit "x"))); (hfixed, Some (hvar (lit "f")))].
Definition htail : list arg := [(hfixed, Some (EAtom ATrue))].
Definition hargs (tl : list arg) : list arg :=
  (None, Some (EAtom (AStr (lit "'a'")))) :: (None, Some hinner) :: (hfixed, Some (hvar (lit "f"))) :: tl.
Definition hexpr (k : nat) : expr := ECall hg (hargs (concat (repeat htail k))).

Definition hhead : text := lit "grepl('a', grepl('b', x, fixed = f), fixed = f".
Definition hmore : text := lit ", fixed = TRUE".
Definition hfile (k : nat) : text := hhead ++ concat (repeat hmore k) ++ lit ")".

(** *** Reading it *)
Definition hmid : list piece :=
  [(ROp, lit ","); (RSpace, lit " "); (RWord, lit "fixed"); (RSpace, lit " "); (ROp, lit "="); (RSpace, lit " ")].
Definition hchunk : list piece := hmid ++ [(RWord, lit "TRUE")].
Lemma lex_more_true : lex_run (LWord (lit "TRUE")) hmore = ((RWord, lit "TRUE") :: hmid, LWord (lit "TRUE")).
Proof. vm_compute. reflexivity. Qed.
Lemma lex_more_f : lex_run (LWord (lit "f")) hmore = ((RWord, lit "f") :: hmid, LWord (lit "TRUE")).
Proof. vm_compute. reflexivity. Qed.
Lemma lex_close_true : lex_run (LWord (lit "TRUE")) (lit ")") = ([(RWord, lit "TRUE")], LOp (lit ")")).
Proof. vm_compute. reflexivity. Qed.
Lemma lex_close_f : lex_run (LWord (lit "f")) (lit ")") = ([(RWord, lit "f")], LOp (lit ")")).
Proof. vm_compute. reflexivity. Qed.
Lemma lex_tails_true : forall k,
  lex_run (LWord (lit "TRUE")) (concat (repeat hmore k) ++ lit ")") =
  ((RWord, lit "TRUE") :: concat (repeat hchunk k), LOp (lit ")")).
Proof.
  induction k as [|k IH]; [exact lex_close_true|].
  change (repeat hmore (S k)) with (hmore :: repeat hmore k).
  change (repeat hchunk (S k)) with (hchunk :: repeat hchunk k). cbn [concat].
  rewrite <- app_assoc, lex_run_app, lex_more_true, IH. reflexivity.
Qed.
Lemma lex_tails_f : forall k,
  lex_run (LWord (lit "f")) (concat (repeat hmore k) ++ lit ")") =
  ((RWord, lit "f") :: concat (repeat hchunk k), LOp (lit ")")).
Proof.
  intros [|k]; [exact lex_close_f|].
  change (repeat hmore (S k)) with (hmore :: repeat hmore k).
  change (repeat hchunk (S k)) with (hchunk :: repeat hchunk k). cbn [concat].
  rewrite <- app_assoc, lex_run_app, lex_more_f, lex_tails_true. reflexivity.
Qed.

Definition hpieces : list piece := fst (lex_run LIdle hhead) ++ [(RWord, lit "f")].
Lemma pieces_hfile : forall k,
  pieces (hfile k) = Some (hpieces ++ concat (repeat hchunk k) ++ [(ROp, lit ")")]).
Proof.
  intros k. unfold pieces, hfile. rewrite lex_run_app.
  assert (E : lex_run LIdle hhead = (fst (lex_run LIdle hhead), LWord (lit "f"))) by (vm_compute; reflexivity).
  rewrite E, lex_tails_f. unfold hpieces. cbn [lex_end option_map].
  rewrite <- !app_assoc. reflexivity.
Qed.

Definition hchunk_toks : list tok := [TComma; TAtom (AId (lit "fixed")); TEq; TAtom ATrue].
Lemma arrange_comma : forall cx op hd s r,
  arrange cx op hd ((ROp, lit ",", s) :: r) = cons_tok TComma s (arrange cx false false r).
Proof. reflexivity. Qed.
Lemma arrange_eq : forall cx op hd s r,
  arrange cx op hd ((ROp, lit "=", s) :: r) = cons_tok TEq s (arrange cx false false r).
Proof. reflexivity. Qed.
Lemma no_ns_tails : forall k pos,
  no_ns (filter visible (place_pieces pos (concat (repeat hchunk k) ++ [(ROp, lit ")")]))).
Proof. intros [|k] pos; [exact Logic.I|]. split; reflexivity. Qed.
Lemma arrange_tails : forall k pos, exists pts,
  arrange [OParen false] true false
    (filter visible (place_pieces pos (concat (repeat hchunk k) ++ [(ROp, lit ")")]))) = Some pts /\
  map fst pts = concat (repeat hchunk_toks k) ++ [TRp] /\
  snd (last (map snd pts) no_span) = pos + 14 * k + 1.
Proof.
  induction k as [|k IH]; intros pos.
  - exists [(TRp, (pos, pos + 1))]. repeat split. cbn. lia.
  - destruct (IH (pos + 14)) as (pts & E & T & L).
    change (repeat hchunk (S k)) with (hchunk :: repeat hchunk k). cbn [concat].
    rewrite <- app_assoc, place_app, filter_app.
    replace (blen (concat (map snd hchunk))) with 14 by (vm_compute; reflexivity).
    change (filter visible (place_pieces pos hchunk)) with
      [(ROp, lit ",", (pos, pos + 1)); (RWord, lit "fixed", (pos + 1 + 1, pos + 1 + 1 + 5));
       (ROp, lit "=", (pos + 1 + 1 + 5 + 1, pos + 1 + 1 + 5 + 1 + 1));
       (RWord, lit "TRUE", (pos + 1 + 1 + 5 + 1 + 1 + 1, pos + 1 + 1 + 5 + 1 + 1 + 1 + 4))].
    cbn [app].
    eexists ((TComma, _) :: (TAtom (AId (lit "fixed")), _) :: (TEq, _) :: (TAtom ATrue, _) :: pts). split; [|split].
    + rewrite arrange_comma, arrange_word by (split; reflexivity).
      change (word_tok (lit "fixed")) with (TAtom (AId (lit "fixed"))). cbv iota.
      rewrite arrange_eq, arrange_word by apply no_ns_tails.
      change (word_tok (lit "TRUE")) with (TAtom ATrue). cbv iota.
      rewrite E. reflexivity.
    + cbn [map fst]. rewrite T. reflexivity.
    + cbn [map snd]. destruct pts as [|pt pts]; [destruct k; discriminate T|].
      cbn [map last] in *. rewrite L. lia.
Qed.

Definition put (pts : list ptok) (r : option (list ptok)) : option (list ptok) :=
  fold_right (fun (kt : ptok) acc => cons_tok (fst kt) (snd kt) acc) r pts.
Lemma put_some : forall a b, put a (Some b) = Some (a ++ b).
Proof. induction a as [|[k s] a IH]; intros b; cbn; [reflexivity|]. unfold put in IH. rewrite IH. reflexivity. Qed.
Definition hpts : list ptok :=
  match arrange [] false false (filter visible (place_pieces 0 (hpieces ++ [(ROp, lit ")")]))) with
  | Some l => firstn 18 l
  | None => []
  end.
Lemma arrange_head : forall r, no_ns r ->
  arrange [] false false (filter visible (place_pieces 0 hpieces) ++ r)
  = put hpts (arrange [OParen false] true false r).
Proof.
  intros r Hr.
  assert (E : filter visible (place_pieces 0 hpieces) =
    firstn 17 (filter visible (place_pieces 0 hpieces)) ++ [(RWord, lit "f", (45, 46))])
    by (vm_compute; reflexivity).
  rewrite E, <- app_assoc. cbn [app].
  assert (F : forall x, arrange [] false false
     (firstn 17 (filter visible (place_pieces 0 hpieces)) ++ (RWord, lit "f", (45, 46)) :: x) =
     put (firstn 17 hpts) (arrange [OParen false] false false ((RWord, lit "f", (45, 46)) :: x))).
  { intros x.
    match goal with |- arrange _ _ _ (?a ++ _) = put ?b _ =>
      let a' := eval vm_compute in a in change a with a'; let b' := eval vm_compute in b in change b with b' end.
    cbn [app].
    repeat first [erewrite arrange_op by reflexivity
                 | rewrite arrange_word by (cbn [no_ns]; try (split; reflexivity); exact Logic.I);
                   match goal with |- context [word_tok ?w] =>
                     let k := eval vm_compute in (word_tok w) in change (word_tok w) with k end; cbv iota
                 | rewrite arrange_str].
    reflexivity. }
  rewrite F, arrange_word by exact Hr.
  change (word_tok (lit "f")) with (TAtom (AId (lit "f"))). cbv iota.
  assert (G : hpts = firstn 17 hpts ++ [(TAtom (AId (lit "f")), (45, 46))]) by (vm_compute; reflexivity).
  rewrite G at 2. unfold put. rewrite fold_right_app. reflexivity.
Qed.

Lemma hexpr_toks : forall k,
  prog_toks [hexpr k] = map fst hpts ++ concat (repeat hchunk_toks k) ++ [TRp].
Proof.
  intros k.
  assert (A : forall k a, args_toks (a :: concat (repeat htail k)) = arg_toks a ++ concat (repeat hchunk_toks k)).
  { clear. unfold args_toks. induction k as [|k IH]; intros a; cbn [repeat concat].
    - cbn. rewrite app_nil_r. reflexivity.
    - cbn [htail app map]. rewrite sep_cons2. specialize (IH (hfixed, Some (EAtom ATrue))).
      cbn [map] in IH. rewrite IH. reflexivity. }
  unfold prog_toks. cbn [map sep]. unfold hexpr.
  change (toks (ECall hg (hargs (concat (repeat htail k)))))
    with (toks hg ++ TLp :: args_toks (hargs (concat (repeat htail k))) ++ [TRp]).
  assert (B : args_toks (hargs (concat (repeat htail k)))
    = [TAtom (AStr (lit "'a'")); TComma] ++ toks hinner ++ TComma :: args_toks ((hfixed, Some (hvar (lit "f"))) :: concat (repeat htail k))).
  { unfold hargs, args_toks. cbn [map]. rewrite !sep_cons2. reflexivity. }
  rewrite B, A. vm_compute. reflexivity.
Qed.

Lemma blen_more : forall k, blen (concat (repeat hmore k)) = 14 * k.
Proof.
  induction k as [|k IH]; [reflexivity|].
  change (repeat hmore (S k)) with (hmore :: repeat hmore k). cbn [concat]. rewrite blen_app, IH.
  replace (blen hmore) with 14 by (vm_compute; reflexivity). lia.
Qed.
Lemma hfile_blen : forall k, blen (hfile k) = 47 + 14 * k.
Proof.
  intros k. unfold hfile. rewrite !blen_app, blen_more.
  replace (blen hhead) with 46 by (vm_compute; reflexivity).
  replace (blen (lit ")")) with 1 by (vm_compute; reflexivity). lia.
Qed.

Lemma last_app_ne : forall {A} (l m : list A) d, m <> [] -> last (l ++ m) d = last m d.
Proof.
  induction l as [|x l IH]; intros m d H; [reflexivity|]. cbn [app]. rewrite <- (IH m d H).
  destruct (l ++ m) eqn:E; [|reflexivity]. destruct l; [contradiction|discriminate].
Qed.
Lemma tokens_hfile : forall k, exists more,
  tokens (hfile k) = Some (hpts ++ more) /\
  map fst (hpts ++ more) = prog_toks [hexpr k] /\
  snd (last (map snd (hpts ++ more)) no_span) = 47 + 14 * k.
Proof.
  intros k. destruct (arrange_tails k 46) as (pts & E & T & L). exists pts. split; [|split].
  - unfold tokens. rewrite pieces_hfile, place_app, filter_app, arrange_head.
    + replace (0 + blen (concat (map snd hpieces))) with 46 by (vm_compute; reflexivity).
      rewrite E. apply put_some.
    + apply no_ns_tails.
  - rewrite map_app. etransitivity; [apply f_equal; exact T|]. symmetry. apply hexpr_toks.
  - destruct pts as [|pt pts]; [destruct k; discriminate T|].
    rewrite map_app, last_app_ne by discriminate. etransitivity; [exact L|]. lia.
Qed.

Lemma parse_hfile : forall k, parse (prog_toks [hexpr k]) = Some [hexpr k].
Proof.
  intros k. apply parse_reads, wf_reads. constructor; [|constructor].
  unfold hexpr. cbn [wf]. split; [exact Logic.I|]. split; [reflexivity|]. split; [discriminate|].
  unfold hargs. cbn [fold_right snd].
  assert (L : forall v, lmin v = 100 -> arg_level <= lmin v) by (intros v ->; unfold arg_level; lia).
  split; [split; [exact Logic.I|apply L; reflexivity]|].
  split; [split; [|apply L; reflexivity]|].
  - unfold hinner. cbn [wf fold_right snd]. repeat split; try discriminate; apply L; reflexivity.
  - split; [split; [exact Logic.I|apply L; reflexivity]|].
    induction k as [|k IH]; cbn [repeat concat htail app fold_right snd]; [exact Logic.I|].
    split; [split; [exact Logic.I|apply L; reflexivity]|exact IH].
Qed.

(** *** The reports *)
Definition hframe (tl : list arg) : list frame :=
  [FCallA hg [(None, Some (EAtom (AStr (lit "'a'"))))] None ((hfixed, Some (hvar (lit "f"))) :: tl)].
Definition hfix (args : list arg) : list tok :=
  call_text (lit "grepl") (args_toks args ++ TComma :: [id_tok (lit "fixed"); TEq; TAtom ATrue]).
Definition hout (tl : list arg) : report := mk_report [] (ECall hg (hargs tl)) (Some (hfix (hargs tl))).
Definition hin (tl : list arg) : report :=
  mk_report (hframe tl) hinner
    (Some (hfix [(None, Some (EAtom (AStr (lit "'b'")))); (None, Some (hvar (lit "x"))); (hfixed, Some (hvar (lit "f")))])).

Lemma run_rules_app : forall s a b fs e,
  run_rules s (a ++ b) fs e = rbind (run_rules s a fs e) (fun x => rbind (run_rules s b fs e) (fun y => ROk (x ++ y))).
Proof.
  induction a as [|[n f] a IH]; intros b fs e; cbn [app run_rules].
  - cbn [rbind]. destruct (run_rules s b fs e); reflexivity.
  - destruct (on s n); [|apply IH]. rewrite IH.
    destruct (f fs e); cbn [rbind]; [|reflexivity..].
    destruct (run_rules s a fs e); cbn [rbind]; [|reflexivity..].
    destruct (run_rules s b fs e); cbn [rbind]; [|reflexivity..]. rewrite app_assoc. reflexivity.
Qed.
Lemma quiet_rules : forall s l fs e, Forall (fun nf : text * rule_fn => snd nf fs e = ROk []) l ->
  run_rules s l fs e = ROk [].
Proof.
  induction l as [|[n f] l IH]; intros fs e H; [reflexivity|]. inversion H; subst.
  cbn [run_rules]. cbn [snd] in *. rewrite H2, IH by assumption. destruct (on s n); reflexivity.
Qed.
Definition hc : config := Eval vm_compute in
  match build_config (fix_args (lit "ALL")) None [] with ROk c => c | _ => mk_config [] [] false false None [] None end.
Definition ho : rule_options := Eval vm_compute in
  match resolve_options None None None None None None with ROk o => o | _ => mk_options true [] [] [] [] 0 end.
Section Rules.
Variable u : rule_fn.
Notation HS := (settings_of hc ho u).

Lemma hquiet : forall tl, Forall (fun nf : text * rule_fn =>
  snd nf [] (ECall hg (hargs tl)) = ROk [])
  (firstn 6 (on_call HS) ++ firstn 9 (skipn 7 (on_call HS)) ++ skipn 17 (on_call HS)).
Proof.
  intros tl. cbn [on_call firstn skipn app].
  repeat (apply Forall_cons; [reflexivity|]). apply Forall_nil.
Qed.
Notation htl k := (concat (repeat htail k)).
Lemma find_tails : forall k n, teqb (lit "fixed") n = false -> find (has_name n) (htl k) = None.
Proof.
  induction k as [|k IH]; intros n H; [reflexivity|].
  cbn [repeat concat htail app find]. unfold has_name at 1. cbn [fst hfixed]. rewrite H. exact (IH n H).
Qed.
Lemma unnamed_tails : forall k, get_unnamed_args (htl k) = [].
Proof. induction k as [|k IH]; [reflexivity|exact IH]. Qed.
Lemma hargs_by_name : forall k n, teqb (lit "fixed") n = false -> get_arg_by_name (hargs (htl k)) n = None.
Proof.
  intros k n H. unfold get_arg_by_name, hargs. cbn [find]. unfold has_name at 1 2 3. cbn [fst hfixed].
  rewrite H. exact (find_tails k n H).
Qed.
Lemma hargs_unnamed : forall k, get_unnamed_args (hargs (htl k)) =
  [(None, Some (EAtom (AStr (lit "'a'")))); (None, Some hinner)].
Proof.
  intros k. unfold hargs. pose proof (unnamed_tails k) as H. unfold get_unnamed_args in *. cbn [filter fst hfixed].
  rewrite H. reflexivity.
Qed.
Lemma hfires : forall k, fixed_regex [] (ECall hg (hargs (htl k))) = Some (hout (htl k)).
Proof.
  intros k. unfold fixed_regex.
  change (get_function_name hg) with (lit "grepl"). change (fixed_position (lit "grepl")) with (Some 5). cbv iota beta zeta.
  change (get_arg_by_name_then_position (hargs (htl k)) (lit "fixed") 5) with (Some (hfixed, Some (hvar (lit "f")))).
  change (ignore_case_position (lit "grepl")) with 3.
  unfold get_arg_by_name_then_position. rewrite !hargs_by_name by reflexivity.
  unfold get_unnamed_arg_by_position. rewrite !hargs_unnamed. reflexivity.
Qed.
Definition hdup (tl : list arg) : list found :=
  map (pair (lit "duplicated_arguments"))
    (listed (if has_duplicate (given_names (hargs tl)) then reported [] (ECall hg (hargs tl)) else None)).
Lemma run_outer : forall k, let tl := htl k in
  run_rules HS (on_call HS) [] (ECall hg (hargs tl)) =
  ROk (hdup tl ++ [(lit "fixed_regex", hout tl)]).
Proof.
  intros k tl. pose proof (hquiet tl) as H. apply Forall_app in H. destruct H as [H1 H]. apply Forall_app in H. destruct H as [H2 H3].
  assert (E : on_call HS = firstn 6 (on_call HS) ++
    [(lit "duplicated_arguments", failing (duplicated_arguments (o_dup_args ho)))] ++ firstn 9 (skipn 7 (on_call HS)) ++
    [(lit "fixed_regex", total fixed_regex)] ++ skipn 17 (on_call HS)) by reflexivity.
  rewrite E. rewrite !run_rules_app. rewrite (quiet_rules _ _ _ _ H1), (quiet_rules _ _ _ _ H2), (quiet_rules _ _ _ _ H3).
  assert (F : fixed_regex [] (ECall hg (hargs tl)) = Some (hout tl)) by apply hfires.
  assert (D : duplicated_arguments (o_dup_args ho) [] (ECall hg (hargs tl)) =
    ROk (if has_duplicate (given_names (hargs tl)) then reported [] (ECall hg (hargs tl)) else None)) by reflexivity.
  cbn [run_rules]. replace (on HS (lit "fixed_regex")) with true by (vm_compute; reflexivity).
  replace (on HS (lit "duplicated_arguments")) with true by (vm_compute; reflexivity). unfold total, failing. rewrite F, D. cbn [rbind listed map app].
  unfold hdup. rewrite app_nil_r. reflexivity.
Qed.
Lemma check_inner : forall tl, check_expression HS (hframe tl) hinner = ROk [(lit "fixed_regex", hin tl)].
Proof. intros tl. reflexivity. Qed.

Lemma check_tails : forall fs k pre,
  (fix go (pre args : list arg) :=
     match args with
     | [] => ROk []
     | (n, v) :: post =>
         rseq (match v with Some x => check_expression HS (FCallA hg pre n post :: fs) x | None => ROk [] end)
           (go (pre ++ [(n, v)]) post)
     end) pre (htl k) = ROk [].
Proof.
  intros fs. induction k as [|k IH]; intros pre; [reflexivity|].
  cbn [repeat concat htail app]. rewrite IH. reflexivity.
Qed.
Lemma check_hfile : forall k,
  check_file HS [hexpr k] =
  ROk (map (pair 0) (hdup (htl k)) ++ [(0, (lit "fixed_regex", hout (htl k))); (0, (lit "fixed_regex", hin (htl k)))]).
Proof.
  intros k. unfold check_file. cbn [check_statements].
  assert (E : check_expression HS [] (hexpr k) =
    ROk (hdup (htl k) ++ [(lit "fixed_regex", hout (htl k)); (lit "fixed_regex", hin (htl k))])).
  { unfold hexpr, hargs at 1. cbn [check_expression]. fold (hargs (htl k)).
    rewrite run_outer. rewrite check_tails. 
    change (check_expression HS
      [FCallA hg ([] ++ [(None, Some (EAtom (AStr (lit "'a'"))))]) None ((hfixed, Some (hvar (lit "f"))) :: htl k)] hinner)
      with (check_expression HS (hframe (htl k)) hinner).
    rewrite check_inner. cbn [hg rseq rbind app]. unfold rseq. cbn [rbind].
    change (check_expression HS ?a (EAtom (AStr (lit "'a'")))) with (@ROk (list found) []).
    change (check_expression HS ?a (hvar (lit "f"))) with (@ROk (list found) []).
    cbn [rbind app].
    match goal with |- context [run_rules ?s ?l ?fs ?e] => change (run_rules s l fs e) with (@ROk (list found) []) end.
    cbn [rbind app]. rewrite <- app_assoc. reflexivity. }
  rewrite E. cbn [rbind]. rewrite map_app. cbn [map]. rewrite app_nil_r. reflexivity.
Qed.

(** *** The fixes *)
Lemma comments_quiet : forall k fr e, exists fr' e', 
  comments fr e (place_pieces 0 (hpieces ++ concat (repeat hchunk k) ++ [(ROp, lit ")")])) = [] /\ fr' = fr /\ e' = e.
Proof.
  intros k fr e. exists fr, e. split; [|auto].
  assert (A : forall ps fr e pos, forallb (fun p : piece => match fst p with RComment => false | _ => true end) ps = true ->
     comments fr e (place_pieces pos ps) = []).
  { clear. induction ps as [|[r w] ps IH]; intros fr e pos H; [reflexivity|].
    cbn [forallb fst] in H. cbn [place_pieces comments]. destruct r; try discriminate; apply IH; exact H. }
  apply A. rewrite forallb_app, forallb_app.
  replace (forallb _ hpieces) with true by (vm_compute; reflexivity). cbn [andb].
  induction k as [|k IH]; [reflexivity|]. cbn [repeat concat]. rewrite forallb_app, <- andb_assoc, IH. reflexivity.
Qed.

Lemma show_from_tails : forall k b (a : atom) r,
  show_from b (TAtom a) (concat (repeat hchunk_toks k) ++ r) =
  concat (repeat hmore k) ++ show_from (match k with 0 => b | _ => false end) (match k with 0 => TAtom a | _ => TAtom ATrue end) r.
Proof.
  induction k as [|k IH]; intros b a r; [reflexivity|].
  change (repeat hchunk_toks (S k)) with (hchunk_toks :: repeat hchunk_toks k).
  change (repeat hmore (S k)) with (hmore :: repeat hmore k). cbn [concat]. rewrite <- !app_assoc.
  transitivity (hmore ++ show_from false (TAtom ATrue) (concat (repeat hchunk_toks k) ++ r)).
  - destruct b; reflexivity.
  - rewrite IH. destruct k; reflexivity.
Qed.
Lemma show_hfix : forall k, show (hfix (hargs (htl k))) = hfile (S k).
Proof.
  intros k.
  assert (E : hfix (hargs (htl k)) = map fst hpts ++ concat (repeat hchunk_toks (S k)) ++ [TRp]).
  { pose proof (hexpr_toks k) as H. unfold prog_toks in H. cbn [map sep] in H.
    change (toks (hexpr k)) with (toks hg ++ TLp :: args_toks (hargs (htl k)) ++ [TRp]) in H.
    unfold hfix, call_text. 
    assert (A : toks hg ++ TLp :: args_toks (hargs (htl k)) = map fst hpts ++ concat (repeat hchunk_toks k)).
    { apply (app_inv_tail [TRp]). rewrite <- !app_assoc. exact H. }
    change (id_tok (lit "grepl") :: TLp :: (args_toks (hargs (htl k)) ++ [TComma; id_tok (lit "fixed"); TEq; TAtom ATrue]) ++ [TRp]
      = map fst hpts ++ concat (repeat hchunk_toks (S k)) ++ [TRp]).
    replace (concat (repeat hchunk_toks (S k))) with (concat (repeat hchunk_toks k) ++ hchunk_toks).
    2: { clear. induction k as [|k IH]; [reflexivity|]. 
         change (repeat hchunk_toks (S (S k))) with (hchunk_toks :: repeat hchunk_toks (S k)).
         change (repeat hchunk_toks (S k)) with (hchunk_toks :: repeat hchunk_toks k) at 1. cbn [concat].
         rewrite <- app_assoc, IH. reflexivity. }
    transitivity ((map fst hpts ++ concat (repeat hchunk_toks k)) ++ hchunk_toks ++ [TRp]).
    2: { rewrite <- !app_assoc. reflexivity. }
    rewrite <- A. cbn [hg toks app]. rewrite <- !app_assoc. reflexivity. }
  rewrite E.
  assert (F : forall r, show (map fst hpts ++ r) = hhead ++ show_from false (TAtom (AId (lit "f"))) r).
  { intros r. match goal with |- context [map fst hpts] =>
      let a := eval vm_compute in (map fst hpts) in change (map fst hpts) with a end.
    cbn [app show]. reflexivity. }
  rewrite F, show_from_tails. reflexivity.
Qed.

Lemma hdup_fixes : forall spans cs p tl,
  exists m, map d_fix (map (filter_fix hc) (map (diag_of spans cs p) (map (pair 0) (hdup tl)))) = repeat empty_fix m.
Proof.
  intros spans cs p tl. unfold hdup. destruct (has_duplicate (given_names (hargs tl))).
  - exists 1. reflexivity.
  - exists 0. reflexivity.
Qed.
Lemma empty_first : forall m c r,
  fix_loop (char_count c) (mk_fstate c 0%Z false (char_count c)) (repeat empty_fix m ++ r) =
  fix_loop (char_count c) (mk_fstate c 0%Z false (char_count c)) r.
Proof.
  induction m as [|m IH]; intros c r; [reflexivity|].
  cbn [repeat app fix_loop].
  assert (E : fix_step (char_count c) (mk_fstate c 0%Z false (char_count c)) empty_fix
    = Some (mk_fstate c 0%Z false (char_count c))).
  { unfold fix_step. cbn [fs_newlen fs_last fs_content fs_skipped empty_fix f_start f_end f_content].
    replace (Z.of_nat 0 + (char_count c - char_count c))%Z with 0%Z by lia.
    change (0 <? 0)%Z with false. cbv iota. unfold replace_range_i32. cbn [Z.ltb orb Z.compare].
    unfold breplace. change (Z.to_nat 0) with 0. cbn [Nat.leb Nat.sub].
    rewrite !bsplit_0. cbn [app]. do 3 f_equal. lia. }
  rewrite E. apply IH.
Qed.
Lemma length_more : forall k, length (concat (repeat hmore k)) = 14 * k.
Proof.
  induction k as [|k IH]; [reflexivity|].
  change (repeat hmore (S k)) with (hmore :: repeat hmore k). cbn [concat]. rewrite app_length, IH.
  replace (length hmore) with 14 by (vm_compute; reflexivity). lia.
Qed.
Lemma hfile_length : forall k, length (hfile k) = 47 + 14 * k.
Proof.
  intros k. unfold hfile. rewrite !app_length, length_more.
  replace (length hhead) with 46 by (vm_compute; reflexivity).
  replace (length (lit ")")) with 1 by (vm_compute; reflexivity). lia.
Qed.

Lemma nth_last : forall {A} (l : list A) d, nth (length l - 1) l d = last l d.
Proof.
  induction l as [|x l IH]; intros d; [reflexivity|]. destruct l as [|y l]; [reflexivity|].
  replace (length (x :: y :: l) - 1) with (S (length (y :: l) - 1)) by (cbn; lia).
  change (nth (length (y :: l) - 1) (y :: l) d = last (y :: l) d). apply IH.
Qed.
Lemma hdiags : forall k, exists m a b c e,
  get_checks hc ho u (hfile k) =
    Some (m ++ [mk_diag (lit "fixed_regex") 0 (47 + 14 * k) (mk_fix (hfile (S k)) 0 (47 + 14 * k) false);
                mk_diag (lit "fixed_regex") a b (mk_fix c 11 e false)]) /\
  exists j, map d_fix m = repeat empty_fix j.
Proof.
  intros k. destruct (tokens_hfile k) as (more & T & F & L).
  assert (Len : length (map snd (hpts ++ more)) = length (toks (hexpr k))).
  { rewrite map_length, <- (map_length fst). etransitivity; [apply f_equal; exact F|]. reflexivity. }
  assert (N : get_checks hc ho u (hfile k) =
    Some (map (filter_fix hc) (map (diag_of (map snd (hpts ++ more)) [] [hexpr k])
      (map (pair 0) (hdup (htl k)) ++ [(0, (lit "fixed_regex", hout (htl k))); (0, (lit "fixed_regex", hin (htl k)))])))).
  { unfold get_checks. rewrite pieces_hfile, T.
    destruct (comments_quiet k true 0) as (fr & e & C & _ & _). rewrite C.
    replace (parse (map fst (hpts ++ more))) with (Some [hexpr k])
      by (rewrite <- parse_hfile; apply f_equal; symmetry; exact F).
    cbv iota. rewrite check_hfile. reflexivity. }
  rewrite N. rewrite (map_app (diag_of _ _ _)), (map_app (filter_fix hc)). cbn [map].
  assert (R1 : report_span (map snd (hpts ++ more)) [hexpr k] 0 (hout (htl k)) = (0, 47 + 14 * k)).
  { unfold report_span, first_token. cbn [firstn map sep_before concat hout at_frames at_node pre_toks length].
    unfold node_span. cbn [Nat.add]. fold (hexpr k). rewrite <- Len, nth_last, L. f_equal. }
  assert (R2 : exists e, report_span (map snd (hpts ++ more)) [hexpr k] 0 (hin (htl k)) = (11, e)).
  { eexists. unfold report_span, first_token, node_span. f_equal. }
  destruct R2 as [e R2].
  assert (D1 : diag_of (map snd (hpts ++ more)) [] [hexpr k] (0, (lit "fixed_regex", hout (htl k)))
    = mk_diag (lit "fixed_regex") 0 (47 + 14 * k) (mk_fix (hfile (S k)) 0 (47 + 14 * k) false)).
  { unfold diag_of. rewrite R1. unfold fix_of. cbn [hout new_text fst snd]. rewrite show_hfix. reflexivity. }
  rewrite D1. unfold diag_of at 2. rewrite R2. unfold fix_of. cbn [hin new_text fst snd].
  do 5 eexists. split; [reflexivity|]. apply hdup_fixes.
Qed.

Lemma one_pass_hfile : forall k,
  exists ds, get_checks hc ho u (hfile k) = Some ds /\
    apply_fixes (map d_fix ds) (hfile k) = Some (true, hfile (S k)).
Proof.
  intros k. destruct (hdiags k) as (m & a & b & c & e & E & j & J). eexists. split; [exact E|].
  rewrite map_app, J. unfold apply_fixes, fix_init. rewrite empty_first. cbn [map d_fix fix_loop].
  assert (B : breplace 0 (blen (hfile k)) (hfile (S k)) (hfile k) = Some (hfile (S k))).
  { apply breplace_iff. exists [], (hfile k), []. cbn [app]. rewrite !app_nil_r. repeat split. }
  assert (F1 : fix_step (char_count (hfile k)) (mk_fstate (hfile k) 0%Z false (char_count (hfile k)))
      (mk_fix (hfile (S k)) 0 (47 + 14 * k) false)
    = Some (mk_fstate (hfile (S k)) (Z.of_nat (47 + 14 * k)) false (char_count (hfile (S k))))).
  { unfold fix_step. cbn [fs_newlen fs_last fs_content fs_skipped f_start f_end f_content].
    rewrite Z.sub_diag. change (Z.of_nat 0 + 0)%Z with 0%Z. change (0 <? 0)%Z with false. cbv iota.
    unfold replace_range_i32. change (0 <? 0)%Z with false. cbn [orb].
    replace (Z.of_nat (47 + 14 * k) + 0 <? 0)%Z with false by (symmetry; apply Z.ltb_ge; lia).
    cbv iota. replace (Z.to_nat (Z.of_nat (47 + 14 * k) + 0)) with (blen (hfile k)) by (rewrite hfile_blen; lia).
    change (Z.to_nat 0) with 0. rewrite B. do 2 f_equal; lia. }
  rewrite F1.
  unfold fix_step. cbn [fs_newlen fs_last fs_content fs_skipped f_start f_end f_content].
  replace (Z.of_nat 11 + (char_count (hfile (S k)) - char_count (hfile k)) <? Z.of_nat (47 + 14 * k))%Z with true.
  - reflexivity.
  - symmetry. apply Z.ltb_lt. unfold char_count. rewrite !hfile_length. lia.
Qed.

(** *** The loop *)
Lemma hang_run : forall n p k fs, fs p = Some (hfile k) ->
  exists sk fs', (jrun (fun _ t => get_checks hc ho u t) (fun _ => true) (2 * n) p fs (JRead true) = (fs', JRead sk)) /\
    sk = true /\ fs' p = Some (hfile (k + n)).
Proof.
  induction n as [|n IH]; intros p k fs H.
  - exists true, fs. rewrite Nat.add_0_r. auto.
  - destruct (one_pass_hfile k) as (ds & E & A).
    replace (2 * S n) with (S (S (2 * n))) by lia. cbn [jrun jstep]. rewrite H, E, A. cbn [jrun jstep].
    destruct (IH p (S k) (upd fs p (hfile (S k)))) as (sk & fs' & R & Hs & F).
    + unfold upd. rewrite teqb_refl. reflexivity.
    + exists sk, fs'. replace (k + S n) with (S k + n) by lia. auto.
Qed.
Lemma hang_never : forall p fs, fs p = Some (hfile 0) -> has_rmd_extension p = false ->
  (forall n, snd (jarl_check hc ho u n p fs) = None) /\
  (forall m, exists n c, fst (jarl_check hc ho u n p fs) p = Some c /\ m <= length c).
Proof.
  intros p fs H X. split.
  - intros n. unfold jarl_check. change (fixing_mode hc) with true. unfold check_path, check_path_start. rewrite X.
    destruct (Nat.Even_or_Odd n) as [[i ->]|[i ->]].
    + destruct (hang_run i p 0 fs H) as (sk & fs' & R & _ & _). rewrite R. reflexivity.
    + destruct (hang_run i p 0 fs H) as (sk & fs' & R & Hs & F). subst sk.
      assert (J : forall lint w n p fs j, jrun lint w (n + 1) p fs j = let '(a, b) := jrun lint w n p fs j in jstep lint w p a b).
      { clear. induction n as [|n IH]; intros p fs j; cbn [Nat.add jrun].
        - destruct (jstep lint w p fs j). reflexivity.
        - destruct (jstep lint w p fs j). apply IH. }
      rewrite J, R. cbn [jstep]. rewrite F. destruct (one_pass_hfile (0 + i)) as (ds & E & A). rewrite E, A. reflexivity.
  - intros m. destruct (hang_run m p 0 fs H) as (sk & fs' & R & _ & F).
    exists (2 * m), (hfile m). split.
    + unfold jarl_check. change (fixing_mode hc) with true. unfold check_path, check_path_start. rewrite X, R. exact F.
    + rewrite hfile_length. lia.
Qed.

End Rules.
Lemma hang_run_with : forall c o u p fs,
  run_with (lit "ALL") c o -> fs p = Some (hfile 0) -> has_rmd_extension p = false ->
  (forall n, snd (jarl_check c o u n p fs) = None) /\
  (forall m, exists n t, fst (jarl_check c o u n p fs) p = Some t /\ m <= length t).
Proof.
  intros c o u p fs [C O] H X.
  assert (Ec : c = hc).
  { assert (Q : build_config (fix_args (lit "ALL")) None [] = ROk hc) by (vm_compute; reflexivity).
    rewrite Q in C. inversion C. reflexivity. }
  assert (Eo : o = ho).
  { assert (Q : resolve_options None None None None None None = ROk ho) by (vm_compute; reflexivity).
    rewrite Q in O. inversion O. reflexivity. }
  subst. apply hang_never; assumption.
Qed.
