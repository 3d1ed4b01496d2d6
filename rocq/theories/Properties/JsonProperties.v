(** C96: the JSON output.  Reading JSON is Spec/JsonSpec.v. *)
From Verif Require Import Model.Text Model.Base Model.Output Model.Json Spec.JsonSpec Proofs.OutputProofs Proofs.JsonProofs.

(** The output is JSON, and says exactly the diagnostics and errors, in order: whatever the texts are. *)
Theorem C96_json_output : forall ds es, exists vs ws,
  read_json (print_json ds es) = Some (JObj [(lit "diagnostics", JArr vs); (lit "errors", JArr ws)]) /\
  Forall2 shows vs ds /\ Forall2 shows_error ws es.
Proof.
  intros ds es. exists (map diag_json ds), (map error_json es). split; [apply read_pretty|]. split.
  - induction ds as [|d ds IH]; cbn [map]; constructor; auto using diag_shown.
  - induction es as [|e es IH]; cbn [map]; constructor; auto. split; reflexivity.
Qed.
Print Assumptions C96_json_output.
(** Two runs with the same output had the same diagnostics and the same errors. *)
Theorem C96_nothing_lost : forall ds es ds' es', print_json ds es = print_json ds' es' -> ds = ds' /\ es = es'.
Proof.
  intros ds es ds' es' E.
  assert (R : Some (output_json ds es) = Some (output_json ds' es')) by (rewrite <- !read_pretty; unfold print_json in E; now rewrite E).
  assert (D : forall d d', diag_json d = diag_json d' -> d = d').
  { intros d d' H. pose proof (diag_shown d) as A. pose proof (diag_shown d') as B. rewrite H in A. unfold shows in A, B.
    destruct A as (A1 & A2 & A3 & A4 & A5 & A6 & A7 & A8 & A9 & A10), B as (B1 & B2 & B3 & B4 & B5 & B6 & B7 & B8 & B9 & B10).
    destruct d as [n b sg f s0 e0 l c fs fe sk], d' as [n' b' sg' f' s0' e0' l' c' fs' fe' sk']. cbn [j_name j_body j_suggestion j_filename j_start j_end j_location j_content j_fix_start j_fix_end j_skip] in *.
    assert (P : forall x y : json, Some x = Some y -> x = y) by congruence.
    rewrite A1 in B1. rewrite A2 in B2. rewrite A3 in B3. rewrite A4 in B4. rewrite A5 in B5. rewrite A7 in B7. rewrite A8 in B8. rewrite A9 in B9. rewrite A10 in B10.
    apply P in B1, B2, B3, B4, B5, B7, B8, B9, B10.
    assert (L : l = l').
    { destruct l as [(r & c0)|], l' as [(r' & c0')|]; auto.
      - destruct A6 as (X & Y), B6 as (X' & Y'). rewrite X in X'. rewrite Y in Y'. apply P in X', Y'. injection X' as ->. injection Y' as ->. reflexivity.
      - exfalso. destruct A6 as (X & _). unfold at_path, diag_json in *. cbn in B6. discriminate.
      - exfalso. destruct B6 as (X & _). cbn in X. discriminate. }
    assert (G : sg = sg') by (destruct sg, sg'; cbn [text_or_null] in B3; congruence).
    injection B1 as ->. injection B2 as ->. injection B4 as ->. injection B5 as -> ->. injection B7 as ->. injection B8 as ->. injection B9 as ->. injection B10 as ->.
    now subst. }
  unfold output_json in R. injection R as Rd Re. split.
  - revert ds' Rd E. clear Re. induction ds as [|d ds IH]; intros [|d' ds'] Rd _; try discriminate; auto.
    cbn [map] in Rd. apply cons_inj in Rd. destruct Rd as (X & Y). apply D in X. subst. f_equal.
    revert Y. clear -D. revert ds'. induction ds as [|a ds IH]; intros [|b ds'] Y; try discriminate; auto. cbn [map] in Y. apply cons_inj in Y. destruct Y as (X & Y). apply D in X. subst. f_equal. auto.
  - clear -Re. revert es' Re. induction es as [|[f t] es IH]; intros [|[f' t'] es'] Re; try discriminate; auto.
    cbn [map] in Re. injection Re as -> -> Re. f_equal. auto.
Qed.
Print Assumptions C96_nothing_lost.

(** When no R file is found, what is printed is not JSON. *)
Theorem C96_no_files_refuted : forall ds es, read_json (json_stdout true ds es) = None.
Proof. intros ds es. vm_compute. reflexivity. Qed.
Print Assumptions C96_no_files_refuted.
Example C96_met :
  let d := mk_jd (lit "any_is_na") (lit "`any(is.na(...))` is inefficient.") (Some (lit "Use `anyNA(...)` instead.")) (lit "a\b.R")
             0 13 (Some (1, 0)) ([34%N] ++ lit "a" ++ [10%N; 27%N; 233%N] ++ [34%N]) 0 13 false in
  print_json [d] [] =
    lit "{" ++ [nl] ++ lit "  " ++ quote (lit "diagnostics") ++ lit ": [" ++ [nl] ++
    lit "    {" ++ [nl] ++
    lit "      " ++ quote (lit "message") ++ lit ": {" ++ [nl] ++
    lit "        " ++ quote (lit "name") ++ lit ": " ++ quote (lit "any_is_na") ++ lit "," ++ [nl] ++
    lit "        " ++ quote (lit "body") ++ lit ": " ++ quote (lit "`any(is.na(...))` is inefficient.") ++ lit "," ++ [nl] ++
    lit "        " ++ quote (lit "suggestion") ++ lit ": " ++ quote (lit "Use `anyNA(...)` instead.") ++ [nl] ++
    lit "      }," ++ [nl] ++
    lit "      " ++ quote (lit "filename") ++ lit ": " ++ [34%N] ++ lit "a\\b.R" ++ [34%N] ++ lit "," ++ [nl] ++
    lit "      " ++ quote (lit "range") ++ lit ": [" ++ [nl] ++ lit "        0," ++ [nl] ++ lit "        13" ++ [nl] ++ lit "      ]," ++ [nl] ++
    lit "      " ++ quote (lit "location") ++ lit ": {" ++ [nl] ++
    lit "        " ++ quote (lit "row") ++ lit ": 1," ++ [nl] ++ lit "        " ++ quote (lit "column") ++ lit ": 0" ++ [nl] ++ lit "      }," ++ [nl] ++
    lit "      " ++ quote (lit "fix") ++ lit ": {" ++ [nl] ++
    lit "        " ++ quote (lit "content") ++ lit ": " ++ [34%N] ++ lit "\" ++ [34%N] ++ lit "a\n\u001b" ++ [233%N] ++ lit "\" ++ [34%N; 34%N] ++ lit "," ++ [nl] ++
    lit "        " ++ quote (lit "start") ++ lit ": 0," ++ [nl] ++ lit "        " ++ quote (lit "end") ++ lit ": 13," ++ [nl] ++
    lit "        " ++ quote (lit "to_skip") ++ lit ": false" ++ [nl] ++ lit "      }" ++ [nl] ++
    lit "    }" ++ [nl] ++ lit "  ]," ++ [nl] ++ lit "  " ++ quote (lit "errors") ++ lit ": []" ++ [nl] ++ lit "}" /\
  read_json (lit " [1, {}, null ] ") = Some (JArr [JNum 1; JObj []; JNull]) /\
  read_json (lit "[1,]") = None /\ read_json ([34%N] ++ lit "\ud83d\ude00" ++ [34%N]) = Some (JStr [128512%N]).
Proof. cbv zeta. split; [vm_compute; reflexivity|]. repeat split; vm_compute; reflexivity. Qed.
