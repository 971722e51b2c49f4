(** Whole translators of two tables alike but for the places of one rule. *)
From Coq Require Import Permutation.
From Coq Require Import List.
From Verif Require Import Base BaseProofs RuleModel TranslationModel TableModel RegexpModel PatternModel HyphenationModel TrieModel
  LoopModel CompileModel CompileSpec CompileProofs MainTable ConstraintModel ConstraintSpec ConstraintProofs IndicatorModel EmphSpec
  MainSpec TraceSpec MainPass PropMultipass PipelineModel PipelineSpec PipelineProofs OrderSpec OrderProofs
  PropPipeline FrameSpec FrameProofs PropFrame SaysSpec SimilarProofs AgreeProofs RepeatSpec RepeatProofs.

Section Translator.
Variable is_alphabetic : char -> bool.
Variable lower upper : char -> list char.
Variable sort : list event -> res (list event).
Variable compat : bool.
Variable read_dictionary : str -> tres hyph.
Notation compile := (pipeline_compile is_alphabetic compat read_dictionary).
Notation built := (pass_built is_alphabetic compat read_dictionary).
Notation step_trace := (transformation_trace lower upper sort).
Notation trace_with := (pipeline_trace_with lower upper sort).
Notation translate_with := (pipeline_translate_with lower upper sort).
Variable d : direction.
Variable r : rule.
Variable t : str.
Hypothesis T : translates r = Some t.
Variable rules rules' : list rule.
Hypothesis AG : agree_but r rules rules'.
Hypothesis IN : forall q, In q rules <-> In q rules'.
Notation compiled := (context_compile is_alphabetic compat).
Notation facing := (filter (is_direction d)).
Hypothesis CX : forall y z, compiled rules = TOk y -> compiled rules' = TOk z -> similar y z.
Hypothesis CF : forall y z, compiled (facing rules) = TOk y -> compiled (facing rules') = TOk z -> similar y z.
Hypothesis VS : forall y k, compiled (facing rules) = TOk y ->
  same_values compat (trie_ctx d y) d (entries d y k (facing rules)) (entries d y k (facing rules')).

Lemma opcode_no k : opcode_of k r = false.
Proof. clear - T. destruct r; try discriminate; destruct k; reflexivity. Qed.
Lemma agree_opcode k : filter (opcode_of k) (facing rules) = filter (opcode_of k) (facing rules').
Proof.
  assert (E : forall l acc, acc ++ filter (opcode_of k) l = fold_left (fun u q => if opcode_of k q then u ++ [q] else u) l acc).
  { clear. induction l as [|q l IH]; intros acc; cbn; [apply app_nil_r|]. rewrite <- IH. destruct (opcode_of k q); [rewrite <- app_assoc|]; reflexivity. }
  rewrite <- (app_nil_l (filter _ (facing rules))), <- (app_nil_l (filter _ (facing rules'))), !E.
  apply (agree_filter r _ _ _ AG). intros u. rewrite opcode_no. reflexivity.
Qed.
Lemma in_facing q : In q (facing rules) <-> In q (facing rules').
Proof. rewrite !filter_In, IN. reflexivity. Qed.
Lemma agree_present k : present rules d k = present rules' d k.
Proof.
  unfold present.
  assert (E : forall f, existsb f (facing rules) = existsb f (facing rules')).
  { intros f. apply Bool.eq_iff_eq_true. rewrite !existsb_exists. split; intros (q & I & F); exists q; (split; [apply in_facing, I|exact F]). }
  destruct k; rewrite ?E; reflexivity.
Qed.
Lemma pass_agree s1 s2 text o : sort_rearranges sort ->
  built d rules s1 -> built d rules' s2 -> kind s1 = kind s2 ->
  (forall m0, s1 = TPrimary m0 -> no_ties is_alphabetic lower compat d [] rules text) ->
  step_trace s1 text o = step_trace s2 text o.
Proof.
  intros SR B1 B2 EK U.
  assert (PM : forall k st y z ps ps', compiled rules = TOk y -> compiled rules' = TOk z ->
     multipass_compile (filter (opcode_of k) (facing rules)) d st y = TOk ps ->
     multipass_compile (filter (opcode_of k) (facing rules')) d st z = TOk ps' -> ps = ps').
  { intros k st y z ps ps' EY EZ M1 M2. rewrite <- agree_opcode in M2. rewrite (similar_multipass y z (CX y z EY EZ)) in M1. congruence. }
  destruct s1 as [st1 ps1|m1|st1 ps1], s2 as [st2 ps2|m2|st2 ps2]; cbn [pass_built kind transformation_trace] in *;
    try (destruct st1; discriminate); try (destruct st2; discriminate); try discriminate.
  - destruct B1 as (y & EY & S1 & C1), B2 as (z & EZ & S2 & C2). rewrite <- S2 in S1. subst st1.
    rewrite (PM CorrectPass st2 y z ps1 ps2); auto.
  - destruct B1 as (y & EY & B1), B2 as (z & EZ & B2). destruct (U m1 eq_refl y EY) as (U1 & U2 & U3). cbn [app] in U1, U2, U3.
    apply (main_built_similar z y (similar_sym _ _ (CF y z EY EZ))) in B2.
    exact (main_agree is_alphabetic compat read_dictionary d y r t T (facing rules) (facing rules') (agree_filter r _ _ _ AG) in_facing lower upper sort SR m1 m2
      text (o_emphasis o) (VS y TMain EY) (VS y TNocross EY) (VS y TComp6 EY) B1 B2 U1 U2 U3).
  - destruct B1 as (y & EY & S1 & C1), B2 as (z & EZ & S2 & C2). rewrite EK in S1, C1. rewrite <- S2 in S1. subst st1.
    rewrite (PM (kind (TPost st2 ps2)) st2 y z ps1 ps2); auto.
Qed.
Theorem translators_agree : forall order1 order2 order1' order2' t1 t2 input o,
  (forall l, Permutation (order1 l) l) -> (forall l, Permutation (order2 l) l) ->
  (forall l, Permutation (order1' l) l) -> (forall l, Permutation (order2' l) l) ->
  compile order1 order2 rules d = TOk t1 -> compile order1' order2' rules' d = TOk t2 -> sort_rearranges sort ->
  (forall before m0 after text, t1 = before ++ TPrimary m0 :: after -> translate_with before input o = Ok text ->
     no_ties is_alphabetic lower compat d [] rules text) ->
  trace_with t1 input o = trace_with t2 input o /\ translate_with t1 input o = translate_with t2 input o.
Proof.
  intros order1 order2 order1' order2' t1 t2 input o O1 O2 P1 P2 E1 E2 SR U.
  destruct (compile_built is_alphabetic compat read_dictionary order1 order2 rules d t1 O1 O2 E1) as [F1 K1].
  destruct (compile_built is_alphabetic compat read_dictionary order1' order2' rules' d t2 P1 P2 E2) as [F2 K2].
  assert (K : map kind t1 = map kind t2) by (rewrite K1, K2; apply filter_ext; intros k; apply agree_present).
  assert (A : forall s1 s2 inp, Forall (built d rules) s1 -> Forall (built d rules') s2 -> map kind s1 = map kind s2 ->
     (forall before m0 after text, s1 = before ++ TPrimary m0 :: after -> translate_with before inp o = Ok text -> no_ties is_alphabetic lower compat d [] rules text) ->
     trace_with s1 inp o = trace_with s2 inp o).
  { clear - SR T AG IN CX CF VS. induction s1 as [|u s1 IH]; intros [|v s2] inp F1 F2 K U; try discriminate; [reflexivity|].
    injection K as K0 K. inversion F1; subst. inversion F2; subst. cbn [pipeline_trace_with].
    assert (SS : step_trace u inp o = step_trace v inp o).
    { apply pass_agree; auto. intros m0 ->. apply (U [] m0 s1 inp); auto. }
    rewrite <- SS. destruct (step_trace u inp o) as [z| |] eqn:ER; cbn [bind]; auto.
    rewrite (IH s2 (outputs z)); auto. intros before m0 after text Es Tr. apply (U (u :: before) m0 after text); [rewrite Es; reflexivity|].
    cbn [pipeline_translate_with]. rewrite step_translate, ER. cbn [bind]. exact Tr. }
  pose proof (A t1 t2 input F1 F2 K U) as QQ. split; [exact QQ|].
  destruct t1 as [|s1 t1]; [destruct t2; [reflexivity|discriminate]|].
  assert (N2 : t2 <> []) by (destruct t2; discriminate).
  rewrite !translate_traced, QQ by (assumption || discriminate). reflexivity.
Qed.
End Translator.

(** ** The rule moved, and the rule repeated *)
Section Instances.
Variable is_alphabetic : char -> bool.
Variable compat : bool.
Variable d : direction.
Variable a m b : list rule.
Variable r : rule.
Variable t : str.
Hypothesis T : translates r = Some t.
Notation compiled := (context_compile is_alphabetic compat).
Notation facing := (filter (is_direction d)).
Notation here := (a ++ r :: m ++ b).
Notation there := (a ++ m ++ r :: b).
Notation twice := (a ++ r :: m ++ r :: b).
Lemma facing_here : is_direction d r = true -> facing here = facing a ++ r :: facing m ++ facing b.
Proof. intros D. rewrite filter_app. cbn [filter]. rewrite D, filter_app. reflexivity. Qed.
Lemma facing_there : is_direction d r = true -> facing there = facing a ++ facing m ++ r :: facing b.
Proof. intros D. rewrite !filter_app. cbn [filter]. rewrite D. reflexivity. Qed.
Lemma facing_twice : is_direction d r = true -> facing twice = facing a ++ r :: facing m ++ r :: facing b.
Proof. intros D. rewrite filter_app. cbn [filter]. rewrite D, filter_app. cbn [filter]. rewrite D. reflexivity. Qed.
Lemma facing_not : is_direction d r = false -> facing here = facing there /\ facing here = facing twice.
Proof. intros D. rewrite !filter_app. cbn [filter]. rewrite !D, !filter_app. cbn [filter]. rewrite D. split; reflexivity. Qed.
Lemma moved_similar y z : compiled (facing here) = TOk y -> compiled (facing there) = TOk z -> similar y z.
Proof.
  destruct (is_direction d r) eqn:D.
  - rewrite (facing_here D), (facing_there D). apply (context_moved_similar is_alphabetic compat r t T).
  - rewrite <- (proj1 (facing_not D)). intros -> [= ->]. apply similar_refl.
Qed.
Lemma twice_similar y z : compiled (facing here) = TOk y -> compiled (facing twice) = TOk z -> similar y z.
Proof.
  destruct (is_direction d r) eqn:D.
  - rewrite (facing_here D), (facing_twice D). apply (context_repeated is_alphabetic compat r t T).
  - rewrite <- (proj2 (facing_not D)). intros -> [= ->]. apply similar_refl.
Qed.
Lemma moved_values y k : others_between d y m r t ->
  same_values compat (trie_ctx d y) d (entries d y k (facing here)) (entries d y k (facing there)).
Proof.
  intros O. destruct (is_direction d r) eqn:D.
  - rewrite (facing_here D), (facing_there D). apply (values_moved compat d y _ _ _ r t T k).
    intros q text dots I. apply O. apply filter_In in I. apply I.
  - rewrite <- (proj1 (facing_not D)). intros p. reflexivity.
Qed.
Lemma twice_values y k : compat = true /\ weak r = true \/ (weak r = true \/ plain_always r = true) /\ others_between d y m r t ->
  same_values compat (trie_ctx d y) d (entries d y k (facing here)) (entries d y k (facing twice)).
Proof.
  intros O. destruct (is_direction d r) eqn:D.
  - rewrite (facing_here D), (facing_twice D). apply (values_twice compat d y _ _ _ r t T k).
    destruct O as [O|[W O]]; [left; exact O|right]. split; [exact W|]. intros q text dots I. apply O. apply filter_In in I. apply I.
  - rewrite <- (proj2 (facing_not D)). intros p. reflexivity.
Qed.
End Instances.
