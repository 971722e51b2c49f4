(** C19, continued: which patterns written in tables have the backtracking order. *)
From Verif Require Import Base BaseProofs RegexpModel RegexpSpec RegexpCode RegexpVM RegexpCorrect RegexpFacts RegexpPrio PropRegexp.
From Verif Require Import RuleModel TranslationModel TableModel OperandModel PatternModel OperandSpec OperandProofs UnescapeSpec OperandText PropOperandText.

(** Ranges {n,m} included, as they are compiled (C21). *)
Theorem C19_patterns_with_ranges : forall lower env at_start r input, loops_consume (as_compiled r) = true ->
  regexp_find lower r env at_start input = Ok (bt_first lower env at_start (as_compiled r) input).
Proof. exact find_first. Qed.
Print Assumptions C19_patterns_with_ranges.

Definition consumes_in_loops (r : regexp) : Prop := loops_consume (as_compiled r) = true.

Lemma quantified_consume s q rest cs : quantifier_text s q rest ->
  consumes_in_loops (quantified q (RegexpModel.RClass cs)) /\
  forall r, negate (quantified q (RegexpModel.RClass cs)) = Some r -> consumes_in_loops r.
Proof.
  intros [| | |]; cbn [quantified]; unfold consumes_in_loops; (split; [|intros r' E; injection E as <-]);
    cbn [as_compiled loops_consume consuming]; try reflexivity.
  all: repeat (rewrite ?andb_true_r; cbn); auto.
  all: apply Bool.negb_true_iff; apply Nat.eqb_neq; lia.
Qed.

Lemma concat_left_consume rs : forall acc, consumes_in_loops acc -> Forall consumes_in_loops rs -> consumes_in_loops (concat_left acc rs).
Proof.
  induction rs as [|r rs IH]; intros acc A F; [exact A|]. inversion F; subst. cbn [concat_left]. apply IH; auto.
  unfold consumes_in_loops in *. cbn [as_compiled loops_consume]. rewrite A. assumption.
Qed.

Lemma tests_consume ctx :
  (forall s t rest, test_text s t rest ->
     (forall r, re_of_instr ctx t = Some r -> consumes_in_loops r) /\
     (negatable_test t -> forall r r', re_of_instr ctx t = Some r -> negate r = Some r' -> consumes_in_loops r')) /\
  (forall s l rest, tests_text s l rest -> forall rs, re_of_all ctx l = Some rs -> Forall consumes_in_loops rs).
Proof.
  apply test_tests_ind.
  - intros rest _. split; [intros r [= <-]|intros _ r r' [= <-] [= <-]]; reflexivity.
  - intros s n rest _. split; [intros r [= <-]|intros _ r r' [= <-] [= <-]]; reflexivity.
  - intros s v s' op s'' x rest _ _ _. split; [intros r E|intros _ r r' E Nr]; destruct op; try discriminate E; injection E as <-; [reflexivity|].
    injection Nr as <-. reflexivity.
  - intros s t rest _. split; [intros r [= <-]|intros _ r r' [= <-] [= <-]]; reflexivity.
  - intros s t rest _ _. split; [intros r [= <-]|intros _ r r' [= <-] [= <-]]; reflexivity.
  - intros s l s' q rest _ _ Q _. destruct (quantified_consume _ _ _ (attrs_chars ctx l) Q) as [A B].
    split; [intros r [= <-]; exact A|intros _ r r' [= <-]; apply B].
  - intros s s' q rest _ _ Q _. destruct (quantified_consume _ _ _ (class_chars ctx (class_from s)) Q) as [A B].
    split; [intros r [= <-]; exact A|intros _ r r' [= <-]; apply B].
  - intros c rest _. split; [intros r [= <-]|intros _ r r' [= <-] [= <-]]; reflexivity.
  - intros s t rest _ [_ IH] Nt. split; [|intros F; destruct F].
    intros r E. cbn [re_of_instr] in E. destruct (re_of_instr ctx t) as [q|] eqn:Eq; [|discriminate]. eauto.
  - intros s l rest _ IH. split; [|intros F; destruct F].
    intros r E. rewrite re_of_replace in E. destruct (re_of_all ctx l) as [rs|]; [|discriminate].
    specialize (IH rs eq_refl). destruct rs as [|a rs]; injection E as <-; [reflexivity|].
    inversion IH; subst. unfold consumes_in_loops. cbn [as_compiled loops_consume]. apply concat_left_consume; assumption.
  - intros rest. split; [intros r [= <-]|intros _ r r' [= <-] [= <-]]; reflexivity.
  - intros rest. split; [intros r [= <-]|intros _ r r' [= <-] [= <-]]; reflexivity.
  - intros rest rs [= <-]. constructor.
  - intros s t s' l rest _ [IHt _] _ IHl rs E. cbn [re_of_all] in E.
    destruct (re_of_instr ctx t) as [a|]; [|discriminate]. destruct (re_of_all ctx l) as [b|]; [|discriminate].
    injection E as <-. constructor; eauto.
Qed.

(** Every test operand of a context, correct or pass rule: the match that is used is always the
    first one in backtracking order. *)
Theorem C19_test_operands : forall s tests x action o st p, parse_tests s = Good tests [] ->
  context_insert x tests action o st = TOk p ->
  forall lower env at_start input,
    regexp_find lower (cp_re p) env at_start input = Ok (bt_first lower env at_start (as_compiled (cp_re p)) input).
Proof.
  intros s tests x action o st p P C lower env at_start input. apply find_first.
  apply C57_tests in P as [_ T].
  unfold context_insert in C. destruct (targets_of (x_swaps x) action) as [ts| |]; try discriminate. cbn [tbind] in C.
  set (ctx := stage_classes x st) in *.
  destruct (re_of_instrs ctx (add_implicit_replace tests)) as [r|] eqn:E; [|discriminate]. injection C as <-. cbn [cp_re].
  pose proof (proj2 (tests_consume ctx) _ _ _ T) as H.
  unfold re_of_instrs in E. unfold add_implicit_replace in E. destruct (existsb is_replace tests).
  - destruct (re_of_all ctx tests) as [rs|]; [|discriminate]. specialize (H rs eq_refl).
    destruct rs as [|a rs]; injection E as <-; [reflexivity|]. inversion H; subst. apply concat_left_consume; assumption.
  - cbn [re_of_all] in E. rewrite re_of_replace in E. destruct (re_of_all ctx tests) as [rs|]; [|discriminate]. specialize (H rs eq_refl).
    destruct rs as [|a rs]; injection E as <-; [reflexivity|]. inversion H; subst.
    cbn [concat_left as_compiled loops_consume]. apply concat_left_consume; assumption.
Qed.
Print Assumptions C19_test_operands.

(** In a match rule a part that is repeated can match the empty text, and then the order is another:
    of ( !$ | b ) star the first alternative fits emptily before "bb" and a backtracking matcher stops
    there, but the two letters are reported. *)
Theorem C19_empty_repetition_refuted : exists ps r,
  match_operand SPost (lit "(!$|b)*") = Good ps [] /\ re_of_patterns [] ps = Some r /\
  bt_first id_lower no_env false (as_compiled r) (lit "bba") = Some (report (lit "bba") 0 0 0) /\
  regexp_find id_lower r no_env false (lit "bba") = Ok (Some (report (lit "bba") 0 0 2)).
Proof.
  eexists _, _. split; [vm_compute; reflexivity|]. split; [vm_compute; reflexivity|]. split; [vm_compute; reflexivity|]. vm_compute. reflexivity.
Qed.
Print Assumptions C19_empty_repetition_refuted.

Example C19_test_operand_example : exists ts p, parse_tests (lit "$l1-3[""a""]") = Good ts [] /\
  context_insert context_empty ts [ActReplace] (RDisplay 1%N 1%N no_constraints) Main = TOk p.
Proof. eexists _, _. split; [vm_compute; reflexivity|]. vm_compute. reflexivity. Qed.
