(** C78: a rule that is repeated changes nothing. *)
From Coq Require Import Permutation Strings.String.
From Coq Require Import List.
From Verif Require Import Base BaseProofs RuleModel TranslationModel TableModel RegexpModel PatternModel HyphenationModel TrieModel
  LoopModel CompileModel CompileSpec CompileProofs MainTable ConstraintModel ConstraintSpec ConstraintProofs IndicatorModel EmphSpec
  MainSpec TraceSpec MainPass PropMultipass PropMain PropMainExamples PipelineModel PipelineSpec PipelineProofs OrderSpec OrderProofs
  PropPipeline FrameSpec FrameProofs PropFrame SaysSpec MoveProofs SimilarProofs AgreeProofs RepeatSpec RepeatProofs TwinProofs.

Section Translator.
Variable is_alphabetic : char -> bool.
Variable lower upper : char -> list char.
Variable sort : list event -> res (list event).
Variable compat : bool.
Variable read_dictionary : str -> tres hyph.
Notation compile := (pipeline_compile is_alphabetic compat read_dictionary).
Notation trace_with := (pipeline_trace_with lower upper sort).
Notation translate_with := (pipeline_translate_with lower upper sort).
Variable d : direction.
Variable a m b : list rule.
Variable r : rule.
Variable t : str.
Hypothesis T : translates r = Some t.
Notation once := (a ++ r :: m ++ b).
Notation twice := (a ++ r :: m ++ r :: b).
(** the rules in between are not for the text of the rule (backward: not for its cells) *)
Definition nothing_between : Prop := forall x q text dots,
  context_compile is_alphabetic compat (filter (is_direction d) once) = TOk x -> In q m -> says x q text dots ->
  match d with Forward => text <> t | Backward => ~ means x (translation_of r) t dots end.
(** In the default build a rule of an opcode without precedence can be repeated anywhere later;
    where there is no rule for its text in between, and without the feature, it can be repeated, too, and
    so can an always rule without conditions. *)
Hypothesis R : compat = true /\ weak r = true \/ (weak r = true \/ plain_always r = true) /\ nothing_between.

(** Two translators of the tables with the rule once and twice, whatever the iteration orders in them, agree
    on every input on whose way the text that comes to the main pass has no ties. *)
Theorem C78_repeated_rules_change_nothing : forall order1 order2 order1' order2' t1 t2 input o,
  (forall l, Permutation (order1 l) l) -> (forall l, Permutation (order2 l) l) ->
  (forall l, Permutation (order1' l) l) -> (forall l, Permutation (order2' l) l) ->
  compile order1 order2 once d = TOk t1 -> compile order1' order2' twice d = TOk t2 ->
  sort_rearranges sort ->
  (forall before m0 after text, t1 = before ++ TPrimary m0 :: after -> translate_with before input o = Ok text ->
     no_ties is_alphabetic lower compat d [] once text) ->
  trace_with t1 input o = trace_with t2 input o /\ translate_with t1 input o = translate_with t2 input o.
Proof.
  intros order1 order2 order1' order2' t1 t2 input o O1 O2 P1 P2 E1 E2 SR U.
  refine (translators_agree is_alphabetic lower upper sort compat read_dictionary d r t T once twice (agree_twice a m b r) (in_twice a m b r) _ _ _
    order1 order2 order1' order2' t1 t2 input o O1 O2 P1 P2 E1 E2 SR U).
  - apply (context_repeated is_alphabetic compat r t T).
  - apply (twice_similar is_alphabetic compat d a m b r t T).
  - intros y k EY. apply (twice_values compat d a m b r t T).
    destruct R as [H|[W O]]; [left; exact H|right; split; [exact W|]]. intros q text dots. apply (O y q text dots EY).
Qed.
End Translator.
Print Assumptions C78_repeated_rules_change_nothing.

(** ** Examples *)
Definition ex_rival : list rule := [RLargesign (lit "cd") (b 15); always "ab" (b 15)].
Definition ex_repeated : rule := RLargesign (lit "cd") (b 30).
(** In the default build a rule for the same text in between does not matter. *)
Example C78_example : forall t1 t2,
  ex_pipeline Forward (ex_letters ++ ex_repeated :: ex_rival ++ []) = TOk t1 -> ex_pipeline Forward (ex_letters ++ ex_repeated :: ex_rival ++ [ex_repeated]) = TOk t2 ->
  pipeline_translate_with ex_lower ex_upper ex_sort t1 (lit "ab cd acd") options_default =
  pipeline_translate_with ex_lower ex_upper ex_sort t2 (lit "ab cd acd") options_default.
Proof.
  intros t1 t2 E1 E2.
  refine (proj2 (C78_repeated_rules_change_nothing ex_alpha ex_lower ex_upper ex_sort true ex_dictionary Forward ex_letters ex_rival [] ex_repeated (lit "cd")
    eq_refl (or_introl (conj eq_refl eq_refl)) (fun l => l) (fun l => l) (fun l => l) (fun l => l) t1 t2 (lit "ab cd acd") options_default
    (fun l => Permutation_refl l) (fun l => Permutation_refl l) (fun l => Permutation_refl l) (fun l => Permutation_refl l) E1 E2 ex_rearranges _)).
  intros before m after text Es Tr x EX.
  destruct (context_compile ex_alpha true (filter (is_direction Forward) ([] ++ ex_letters ++ ex_repeated :: ex_rival ++ []))) as [y| |] eqn:Y; try discriminate. injection EX as <-.
  vm_compute in Y. injection Y as <-.
  split; [|split]; apply unconditional_untied; vm_compute; reflexivity.
Qed.
(** The rule is used in both. *)
Example C78_example_used :
  ex_translate Forward (ex_letters ++ ex_repeated :: ex_rival ++ [ex_repeated]) (lit "ab cd acd") options_default =
  ex_translate Forward (ex_letters ++ ex_repeated :: ex_rival ++ []) (lit "ab cd acd") options_default /\
  ex_translate Forward (ex_letters ++ ex_repeated :: ex_rival ++ []) (lit "ab cd acd") options_default <>
  ex_translate Forward (ex_letters ++ ex_rival) (lit "ab cd acd") options_default.
Proof. split; [vm_compute; reflexivity|]. vm_compute. discriminate. Qed.
(** A word rule cannot be repeated: the second time it counts for less, and another rule wins. *)
Theorem C78_conditional_rules_refuted : exists r q input,
  translates r <> None /\ translates q <> translates r /\
  ex_translate Forward (ex_letters ++ r :: [q] ++ []) input options_default <>
  ex_translate Forward (ex_letters ++ r :: [q] ++ [r]) input options_default.
Proof.
  exists (RWord (lit "ab") (Explicit (b 15)) K []), (RLargesign (lit "ab ") (b 30)), (lit "ab c").
  split; [discriminate|]. split; [discriminate|]. vm_compute. discriminate.
Qed.
Print Assumptions C78_conditional_rules_refuted.
(** Nor can a table be read twice in such a case, as where two tables include the same third one. *)
Theorem C78_tables_read_twice_refuted : exists table input,
  ex_translate Forward table input options_default <> ex_translate Forward (table ++ table) input options_default.
Proof.
  exists (ex_letters ++ [RWord (lit "ab") (Explicit (b 15)) K []; RLargesign (lit "ab ") (b 30)]), (lit "ab c").
  vm_compute. discriminate.
Qed.
Print Assumptions C78_tables_read_twice_refuted.
(** An always rule cannot pass one for the same text: in the default build the last one counts. *)
Theorem C78_always_same_text_refuted : exists r q input,
  plain_always r = true /\ translates q = translates r /\
  ex_translate Forward (ex_letters ++ r :: [q] ++ []) input options_default <>
  ex_translate Forward (ex_letters ++ r :: [q] ++ [r]) input options_default.
Proof.
  exists (always "cd" (b 30)), (always "cd" (b 15)), (lit "acd").
  split; [reflexivity|]. split; [reflexivity|]. vm_compute. discriminate.
Qed.
Print Assumptions C78_always_same_text_refuted.
