(** C67: where in a table a rule stands does not matter as long as it does not pass a rule for the
    same text. *)
From Coq Require Import Permutation Strings.String.
From Coq Require Import List.
From Verif Require Import Base BaseProofs RuleModel TranslationModel TableModel RegexpModel PatternModel HyphenationModel TrieModel
  LoopModel CompileModel CompileSpec CompileProofs MainTable ConstraintModel ConstraintSpec ConstraintProofs IndicatorModel EmphSpec
  MainSpec TraceSpec MainPass PropMultipass PropMain PropMainExamples PipelineModel PipelineSpec PipelineProofs OrderSpec OrderProofs
  PropPipeline FrameSpec FrameProofs PropFrame SaysSpec MoveProofs SimilarProofs AgreeProofs RepeatSpec RepeatProofs TwinProofs.

Section Translator.
Variable is_alphabetic : char -> bool.
Variable lower upper : char -> list char.
Variable sort : list event -> res (list event).
Variable compat : bool.
Variable read_dictionary : str -> tres hyph.
Notation compile := (pipeline_compile is_alphabetic compat read_dictionary).
Notation built := (pass_built is_alphabetic compat read_dictionary).
Notation step_trace := (transformation_trace lower upper sort).
Notation trace_with := (pipeline_trace_with lower upper sort).
Notation translate_with := (pipeline_translate_with lower upper sort).
Variable d : direction.
Variable a m b : list rule.
Variable r : rule.
Variable t : str.
Hypothesis T : translates r = Some t.
Notation here := (a ++ r :: m ++ b).
Notation there := (a ++ m ++ r :: b).
(** the rules in between are not for the text of the rule (backward: not for its cells) *)
Definition other_texts : Prop := forall x q text dots,
  context_compile is_alphabetic compat (filter (is_direction d) here) = TOk x -> In q m -> says x q text dots ->
  match d with Forward => text <> t | Backward => ~ means x (translation_of r) t dots end.
Hypothesis OT : other_texts.

(** Two translators of the tables, whatever the iteration orders in them, agree on every input on whose
    way the text that comes to the main pass has no ties. *)
Theorem C67_rules_can_be_moved : forall order1 order2 order1' order2' t1 t2 input o,
  (forall l, Permutation (order1 l) l) -> (forall l, Permutation (order2 l) l) ->
  (forall l, Permutation (order1' l) l) -> (forall l, Permutation (order2' l) l) ->
  compile order1 order2 here d = TOk t1 -> compile order1' order2' there d = TOk t2 ->
  sort_rearranges sort ->
  (forall before m0 after text, t1 = before ++ TPrimary m0 :: after -> translate_with before input o = Ok text ->
     no_ties is_alphabetic lower compat d [] here text) ->
  trace_with t1 input o = trace_with t2 input o /\ translate_with t1 input o = translate_with t2 input o.
Proof.
  intros order1 order2 order1' order2' t1 t2 input o O1 O2 P1 P2 E1 E2 SR U.
  refine (translators_agree is_alphabetic lower upper sort compat read_dictionary d r t T here there (agree_moved a m b r) (in_moved a m b r) _ _ _
    order1 order2 order1' order2' t1 t2 input o O1 O2 P1 P2 E1 E2 SR U).
  - apply (context_moved_similar is_alphabetic compat r t T).
  - apply (moved_similar is_alphabetic compat d a m b r t T).
  - intros y k EY. apply (moved_values compat d a m b r t T). intros q text dots. apply (OT y q text dots EY).
Qed.
End Translator.
Print Assumptions C67_rules_can_be_moved.

(** ** Examples *)
(** no entry of the table has a condition on its neighbours *)
Definition ex_free (d : direction) (table : list rule) : bool :=
  match context_compile ex_alpha true (filter (is_direction d) table) with
  | TOk x => let rules := filter (is_direction d) table in
      forallb (fun e => unconditional (ins_path (trie_ctx d x) d e)) (main_entries d x rules ++ nocross_entries x rules ++ comp6_entries x rules)
  | _ => true
  end.
Lemma ex_no_ties d table text : ex_free d table = true -> no_ties ex_alpha ex_lower true d [] table text.
Proof.
  unfold ex_free, no_ties. intros F x EX. cbn [app] in EX |- *. rewrite EX in F. rewrite !forallb_app, !andb_true_iff in F. destruct F as (F1 & F2 & F3).
  split; [|split]; apply unconditional_untied; assumption.
Qed.
Lemma ex_moves d a m b r t t1 t2 input o : translates r = Some t -> other_texts ex_alpha true d a m b r t ->
  ex_pipeline d (a ++ r :: m ++ b) = TOk t1 -> ex_pipeline d (a ++ m ++ r :: b) = TOk t2 -> ex_free d (a ++ r :: m ++ b) = true ->
  pipeline_translate_with ex_lower ex_upper ex_sort t1 input o = pipeline_translate_with ex_lower ex_upper ex_sort t2 input o.
Proof.
  intros T OT E1 E2 F.
  refine (proj2 (C67_rules_can_be_moved ex_alpha ex_lower ex_upper ex_sort true ex_dictionary d a m b r t T OT (fun l => l) (fun l => l) (fun l => l) (fun l => l) t1 t2 input o
    (fun l => Permutation_refl l) (fun l => Permutation_refl l) (fun l => Permutation_refl l) (fun l => Permutation_refl l) E1 E2 ex_rearranges _)).
  intros. apply ex_no_ties, F.
Qed.
Definition ex_between : list rule := [always "ab" (b 15); RLetter 101%N (b 17) K].
Definition ex_moved : rule := RLargesign (lit "cd") (b 30).
(** The rule for [cd] is moved past the rules for [ab] and [e]. *)
Example C67_example : forall t1 t2,
  ex_pipeline Forward (ex_letters ++ ex_moved :: ex_between ++ []) = TOk t1 -> ex_pipeline Forward (ex_letters ++ ex_between ++ [ex_moved]) = TOk t2 ->
  pipeline_translate_with ex_lower ex_upper ex_sort t1 (lit "abe cd acd") options_default =
  pipeline_translate_with ex_lower ex_upper ex_sort t2 (lit "abe cd acd") options_default.
Proof.
  intros t1 t2 E1 E2. eapply ex_moves; [| |exact E1|exact E2|]; [reflexivity| |vm_compute; reflexivity].
  intros x q text dots _ [<-|[<-|[]]] [-> _]; discriminate.
Qed.
(** The rule is used in both. *)
Example C67_example_used :
  ex_translate Forward (ex_letters ++ ex_moved :: ex_between ++ []) (lit "abe cd acd") options_default =
  ex_translate Forward (ex_letters ++ ex_between ++ [ex_moved]) (lit "abe cd acd") options_default /\
  ex_translate Forward (ex_letters ++ ex_moved :: ex_between ++ []) (lit "abe cd acd") options_default <>
  ex_translate Forward (ex_letters ++ ex_between ++ []) (lit "abe cd acd") options_default.
Proof. split; [vm_compute; reflexivity|]. vm_compute. discriminate. Qed.
(** Backward an always rule for letters, whose cells become letters, can be moved, too. *)
Example C67_example_letters : forall t1 t2 input,
  ex_pipeline Backward (ex_letters ++ always "cd" (b 30) :: ex_between ++ []) = TOk t1 -> ex_pipeline Backward (ex_letters ++ ex_between ++ [always "cd" (b 30)]) = TOk t2 ->
  pipeline_translate_with ex_lower ex_upper ex_sort t1 input options_default =
  pipeline_translate_with ex_lower ex_upper ex_sort t2 input options_default.
Proof.
  intros t1 t2 input E1 E2. eapply ex_moves; [| |exact E1|exact E2|]; [reflexivity| |vm_compute; reflexivity].
  intros x q text dots _ [<-|[<-|[]]] P Q; cbn in P, Q; destruct P as [P P2]; subst; discriminate Q.
Qed.
(** A rule may not pass a rule for the same text: of two, the first is used (the last without the default
    feature). *)
Theorem C67_same_text_refuted : exists r q input,
  translates r <> None /\ translates q = translates r /\
  ex_translate Forward (ex_letters ++ [r; q]) input options_default <> ex_translate Forward (ex_letters ++ [q; r]) input options_default.
Proof.
  exists (RLargesign (lit "cd") (b 30)), (RLargesign (lit "cd") (b 15)), (lit "acd").
  split; [discriminate|]. split; [reflexivity|]. vm_compute. discriminate.
Qed.
Print Assumptions C67_same_text_refuted.
