(** C02, C04, C05, C37, C52 and C53 for whole translators: the passes of a table one
    after the other. *)
From Coq Require Import Permutation Strings.String.
From Coq Require Import List.
From Verif Require Import Base BaseProofs RuleModel TranslationModel TableModel RegexpModel PatternModel HyphenationModel TrieModel
  LoopModel CompileModel CompileSpec CompileProofs MainTable ConstraintModel ConstraintSpec ConstraintProofs IndicatorModel EmphSpec
  MainSpec TraceSpec MainPass PropMultipass PropMain PropMainExamples PipelineModel PipelineSpec PipelineProofs OrderSpec OrderProofs.

Section Translator.
Variable is_alphabetic : char -> bool.
Variable lower upper : char -> list char.
Variable sort : list event -> res (list event).
Variable compat : bool.
Variable read_dictionary : str -> tres hyph.
Notation compile := (pipeline_compile is_alphabetic compat read_dictionary).
Notation built := (pass_built is_alphabetic compat read_dictionary).
Notation step_trace := (transformation_trace lower upper sort).
Notation trace_with := (pipeline_trace_with lower upper sort).
Notation trace := (pipeline_trace lower upper sort).
Notation translate_with := (pipeline_translate_with lower upper sort).
Notation translate := (pipeline_translate lower upper sort).

(** ** C04 *)
(** Whatever the iteration orders of the hash maps, the passes of a compiled table are, in
    the order of the direction, the main pass and those for which the table has a rule
    meant for the direction; and each is made of the rules meant for the direction. *)
Theorem C04_passes_in_order : forall order1 order2 table d t,
  (forall l, Permutation (order1 l) l) -> (forall l, Permutation (order2 l) l) -> marked_once table ->
  compile order1 order2 table d = TOk t ->
  Forall (built d table) t /\
  exists there, map kind t = filter there (pass_order d) /\
    forall k, there k = true <-> k = MainPass \/ exists r, In r table /\ opcode_of k r = true /\ meant_for d r.
Proof.
  intros order1 order2 table d t O1 O2 M E. destruct (compile_built is_alphabetic compat read_dictionary order1 order2 table d t O1 O2 E) as [F K].
  split; [exact F|]. exists (present table d). split; [exact K|]. intros k. unfold present.
  assert (G : existsb (opcode_of k) (filter (is_direction d) table) = true <-> exists r, In r table /\ opcode_of k r = true /\ meant_for d r).
  { rewrite existsb_exists. split.
    - intros (r & I & P). apply filter_In in I. destruct I as [I J]. exists r. split; [exact I|]. split; [exact P|].
      apply (is_direction_meant d r (M r I)), J.
    - intros (r & I & P & J). exists r. split; [|exact P]. apply filter_In. split; [exact I|]. apply (is_direction_meant d r (M r I)), J. }
  assert (N : forall r, opcode_of MainPass r = false) by (intros []; reflexivity).
  destruct k; rewrite ?G; try (split; [auto|intros [X|X]; [discriminate|exact X]]).
  split; auto.
Qed.

(** Every pass is traced on the text the pass before it produced. *)
Theorem C04_each_pass_reads_the_previous : forall t input o results, trace_with t input o = Ok results ->
  length results = length t /\
  forall i s r, nth_error t i = Some s -> nth_error results i = Some r ->
    exists text, step_trace s text o = Ok r /\
      match i with
      | 0 => text = input
      | S j => exists previous, nth_error results j = Some previous /\ text = flat_map r_output previous
      end.
Proof.
  induction t as [|s0 t IH]; intros input o results E; cbn [pipeline_trace_with] in E.
  - injection E as <-. split; [reflexivity|]. intros [|i] s r H; discriminate.
  - destruct (step_trace s0 input o) as [r0| |] eqn:E0; try discriminate. cbn [bind] in E.
    destruct (trace_with t (outputs r0) o) as [rest| |] eqn:E1; try discriminate. cbn [bind] in E. injection E as <-.
    destruct (IH _ _ _ E1) as [L H]. split; [cbn [length]; rewrite L; reflexivity|].
    intros [|i] s r Hs Hr; cbn [nth_error] in Hs, Hr.
    + injection Hs as <-. injection Hr as <-. exists input. auto.
    + destruct (H i s r Hs Hr) as (text & T & P). exists text. split; [exact T|]. destruct i as [|j].
      * exists r0. auto.
      * exact P.
Qed.

Lemma step_translate s input o :
  transformation_translate_with lower upper sort s input o = do t <- step_trace s input o; Ok (outputs t).
Proof. destruct s; reflexivity. Qed.
Lemma translate_traced t : forall input o, t <> [] ->
  translate_with t input o = do results <- trace_with t input o; Ok (outputs (last results [])).
Proof.
  induction t as [|s t IH]; intros input o N; [congruence|]. cbn [pipeline_translate_with pipeline_trace_with].
  rewrite step_translate. destruct (step_trace s input o) as [r| |]; cbn [bind]; auto.
  destruct t as [|s' t]; [reflexivity|]. rewrite IH by discriminate.
  destruct (trace_with (s' :: t) (outputs r) o) as [rest| |] eqn:E; cbn [bind]; auto.
  apply C04_each_pass_reads_the_previous in E. destruct E as [L _]. destruct rest; [discriminate|reflexivity].
Qed.
Lemma compiled_some order1 order2 table d t :
  (forall l, Permutation (order1 l) l) -> (forall l, Permutation (order2 l) l) ->
  compile order1 order2 table d = TOk t -> t <> [].
Proof.
  intros O1 O2 E. destruct (compile_built is_alphabetic compat read_dictionary order1 order2 table d t O1 O2 E) as [_ K].
  intros ->. assert (I : In MainPass (filter (present table d) (pass_order d))).
  { apply filter_In. split; [destruct d; cbn; auto 6|reflexivity]. }
  rewrite <- K in I. destruct I.
Qed.

(** translate returns what the last traced pass wrote; it returns iff tracing does. *)
Theorem C04_translate_is_the_last_pass : forall order1 order2 table d t input o out,
  (forall l, Permutation (order1 l) l) -> (forall l, Permutation (order2 l) l) ->
  compile order1 order2 table d = TOk t ->
  (translate_with t input o = Ok out <->
   exists before l, trace_with t input o = Ok (before ++ [l]) /\ out = flat_map r_output l).
Proof.
  intros order1 order2 table d t input o out O1 O2 E. pose proof (compiled_some _ _ _ _ _ O1 O2 E) as N.
  rewrite translate_traced by exact N. destruct (trace_with t input o) as [results| |] eqn:ET; cbn [bind].
  - pose proof (C04_each_pass_reads_the_previous _ _ _ _ ET) as [L _].
    assert (NR : results <> []) by (destruct results, t; try discriminate; congruence).
    destruct (exists_last NR) as (before & l & ->). rewrite last_last. split.
    + intros [= <-]. exists before, l. auto.
    + intros (b' & l' & [= X] & ->). apply app_inj_tail in X. destruct X as [_ ->]. reflexivity.
  - split; [discriminate|]. intros (b' & l' & [=] & _).
  - split; [discriminate|]. intros (b' & l' & [=] & _).
Qed.
(** The simple call is the call with default options, tracing and translating alike; and the
    public result holds that output. *)
Theorem C04_simple_calls : forall t input,
  translate t input = translate_with t input options_default /\
  trace t input = trace_with t input options_default /\
  translator_translate lower upper sort t input = translate t input.
Proof.
  intros t input. assert (A : translate t input = translate_with t input options_default).
  { revert input. induction t as [|s t IH]; intros input; cbn [pipeline_translate pipeline_translate_with]; [reflexivity|].
    assert (X : transformation_translate lower upper sort s input = transformation_translate_with lower upper sort s input options_default) by (destruct s; reflexivity).
    rewrite X. destruct (transformation_translate_with lower upper sort s input options_default); cbn [bind]; auto. }
  split; [exact A|]. split; [reflexivity|]. unfold translator_translate, translator_translate_with. rewrite <- A.
  destruct (translate t input); reflexivity.
Qed.

(** ** C52 *)
(** Of the options only the emphasis is looked at; and of the result only the output is
    filled in. *)
Theorem C52_only_emphasis_is_used : forall t input o1 o2, o_emphasis o1 = o_emphasis o2 ->
  trace_with t input o1 = trace_with t input o2 /\
  translator_translate_with lower upper sort t input o1 = translator_translate_with lower upper sort t input o2.
Proof.
  intros t input o1 o2 E.
  assert (A : forall s text, step_trace s text o1 = step_trace s text o2) by (intros []; intros; cbn [transformation_trace]; rewrite ?E; reflexivity).
  split.
  - revert input. induction t as [|s t IH]; intros input; cbn [pipeline_trace_with]; [reflexivity|]. rewrite A.
    destruct (step_trace s input o2); cbn [bind]; auto. rewrite IH. reflexivity.
  - unfold translator_translate_with. f_equal. revert input. induction t as [|s t IH]; intros input; cbn [pipeline_translate_with]; [reflexivity|].
    rewrite !step_translate, A. destruct (step_trace s input o2); cbn [bind]; auto.
Qed.
Theorem C52_only_output_is_filled_in : forall t input o r, translator_translate_with lower upper sort t input o = Ok r ->
  translate_with t input o = Ok (tr_output r) /\
  tr_emphasis r = None /\ tr_spacing r = None /\ tr_output_positions r = None /\ tr_input_positions r = None /\ tr_cursor r = None.
Proof.
  intros t input o r. unfold translator_translate_with. destruct (translate_with t input o); try discriminate.
  cbn [bind]. intros [= <-]. auto 7.
Qed.

(** ** C53 *)
(** The emphasis given is counted in the text the main pass reads, which is what the passes
    before it have made of the input. *)
Theorem C53_emphasis_counts_the_text_of_the_main_pass : forall before m after input o results,
  trace_with (before ++ TPrimary m :: after) input o = Ok results ->
  exists text r, translate_with before input o = Ok text /\ nth_error results (length before) = Some r /\
    main_trace lower upper sort m text (o_emphasis o) = Ok r.
Proof.
  induction before as [|s before IH]; intros m after input o results E; cbn [app pipeline_trace_with pipeline_translate_with transformation_trace] in *.
  - destruct (main_trace lower upper sort m input (o_emphasis o)) as [r| |] eqn:E0; try discriminate. cbn [bind] in E.
    destruct (trace_with after (outputs r) o) as [l| |]; try discriminate. cbn [bind] in E. injection E as <-. exists input, r. auto.
  - rewrite step_translate. destruct (step_trace s input o) as [r| |]; try discriminate. cbn [bind] in *.
    destruct (trace_with (before ++ TPrimary m :: after) (outputs r) o) as [l| |] eqn:E1; try discriminate. cbn [bind] in E. injection E as <-.
    cbn [length nth_error]. eapply IH, E1.
Qed.

(** ** C02 *)
(** Every translator ends on every input with every option, without a panic, if no compbrl
    trigger starts with a character of the class space. *)
Theorem C02_translators_end : forall order1 order2 table d t,
  (forall l, Permutation (order1 l) l) -> (forall l, Permutation (order2 l) l) ->
  compile order1 order2 table d = TOk t ->
  dictionaries_read read_dictionary -> sort_rearranges sort -> (forall l, exists l', sort l = Ok l') ->
  (forall trigger k x, In (RCompbrl trigger k) table ->
     context_compile is_alphabetic compat (filter (is_direction d) table) = TOk x ->
     exists c rest, trigger = c :: rest /\ cls_has (x_chars x) CSpace c = false) ->
  forall input o, (exists results, trace_with t input o = Ok results) /\ exists out, translate_with t input o = Ok out.
Proof.
  intros order1 order2 table d t O1 O2 E DR SR ST CB.
  pose proof (compiled_some _ _ _ _ _ O1 O2 E) as NE.
  destruct (compile_built is_alphabetic compat read_dictionary order1 order2 table d t O1 O2 E) as [F _].
  assert (S1 : forall s, In s t -> forall input o, exists r, step_trace s input o = Ok r).
  { intros s I input o. rewrite Forall_forall in F. specialize (F s I). destruct s as [st ps|m|st ps]; cbn [pass_built] in F.
    - destruct F as (x & _ & _ & C). apply (C02_passes_terminate lower _ _ _ _ _ input C).
    - destruct F as (x & EX & B). apply (C02_main_pass_ends is_alphabetic compat read_dictionary d x _ lower upper sort m B DR SR); [|exact ST].
      intros p (_ & tr & k & rest & It & Er) (c0 & E0 & Sp). apply filter_In in It. destruct It as [It _].
      destruct (CB _ _ x It EX) as (c & rest' & -> & Ec). assert (Hc0 : nth_error input p = Some c).
      { assert (X : nth_error (skipn p input) 0 = Some c) by (rewrite Er; reflexivity).
        revert X. clear. revert p. induction input as [|a l IH]; intros [|p] X; cbn in *; auto; discriminate. }
      rewrite E0 in Hc0. injection Hc0 as ->. congruence.
    - destruct F as (x & _ & _ & C). apply (C02_passes_terminate lower _ _ _ _ _ input C). }
  assert (A : forall input o, exists results, trace_with t input o = Ok results).
  { clear NE F E. induction t as [|s t IH]; intros input o; cbn [pipeline_trace_with]; [eauto|].
    destruct (S1 s (or_introl eq_refl) input o) as (r & ->). cbn [bind].
    destruct (IH (fun s' I => S1 s' (or_intror I)) (outputs r) o) as (l & ->). cbn [bind]. eauto. }
  intros input o. split; [apply A|]. rewrite translate_traced by exact NE. destruct (A input o) as (l & ->). cbn [bind]. eauto.
Qed.

(** ** C05 *)
(** Two translators made from the same table for the same direction, whatever the iteration
    orders in them, agree on every text on whose way to the main pass no two rules tie. *)
Lemma pass_same table d s1 s2 text o : dictionaries_read read_dictionary -> sort_rearranges sort ->
  built d table s1 -> built d table s2 -> kind s1 = kind s2 ->
  (forall m x, s1 = TPrimary m -> context_compile is_alphabetic compat (filter (is_direction d) table) = TOk x ->
     untied compat (trie_ctx d x) d lower (main_entries d x (filter (is_direction d) table)) text /\
     untied compat (trie_ctx d x) d lower (nocross_entries x (filter (is_direction d) table)) text /\
     untied compat (trie_ctx d x) d lower (comp6_entries x (filter (is_direction d) table)) text) ->
  step_trace s1 text o = step_trace s2 text o.
Proof.
  intros DR SR B1 B2 EK U. destruct s1 as [st1 ps1|m1|st1 ps1], s2 as [st2 ps2|m2|st2 ps2]; cbn [pass_built kind transformation_trace] in *;
    try (destruct st1; discriminate); try (destruct st2; discriminate); try discriminate.
  - destruct B1 as (x & EX & -> & C1), B2 as (x' & EX' & -> & C2). rewrite EX in EX'. injection EX' as <-. cbn [kind] in *. rewrite C1 in C2. injection C2 as <-. reflexivity.
  - destruct B1 as (x & EX & B1), B2 as (x' & EX' & B2). rewrite EX in EX'. injection EX' as <-.
    destruct (U m1 x eq_refl EX) as (U1 & U2 & U3). eapply main_same; eauto.
  - destruct B1 as (x & EX & S1 & C1), B2 as (x' & EX' & S2 & C2). rewrite EX in EX'. injection EX' as <-.
    rewrite EK in S1, C1. rewrite <- S2 in S1. subst st1. rewrite C1 in C2. injection C2 as <-. reflexivity.
Qed.
Theorem C05_same_table_same_result : forall table d t1 t2 input o,
  Forall (built d table) t1 -> Forall (built d table) t2 -> map kind t1 = map kind t2 ->
  dictionaries_read read_dictionary -> sort_rearranges sort ->
  (forall before m after text x, t1 = before ++ TPrimary m :: after -> translate_with before input o = Ok text ->
     context_compile is_alphabetic compat (filter (is_direction d) table) = TOk x ->
     untied compat (trie_ctx d x) d lower (main_entries d x (filter (is_direction d) table)) text /\
     untied compat (trie_ctx d x) d lower (nocross_entries x (filter (is_direction d) table)) text /\
     untied compat (trie_ctx d x) d lower (comp6_entries x (filter (is_direction d) table)) text) ->
  trace_with t1 input o = trace_with t2 input o /\ translate_with t1 input o = translate_with t2 input o.
Proof.
  intros table d t1 t2 input o F1 F2 K DR SR U.
  assert (A : forall s1 s2 inp, Forall (built d table) s1 -> Forall (built d table) s2 -> map kind s1 = map kind s2 ->
     (forall before m after text x, s1 = before ++ TPrimary m :: after -> translate_with before inp o = Ok text ->
     context_compile is_alphabetic compat (filter (is_direction d) table) = TOk x ->
     untied compat (trie_ctx d x) d lower (main_entries d x (filter (is_direction d) table)) text /\
     untied compat (trie_ctx d x) d lower (nocross_entries x (filter (is_direction d) table)) text /\
     untied compat (trie_ctx d x) d lower (comp6_entries x (filter (is_direction d) table)) text) ->
     trace_with s1 inp o = trace_with s2 inp o).
  { clear - DR SR. induction s1 as [|a s1 IH]; intros [|b s2] inp F1 F2 K U; try discriminate; [reflexivity|].
    injection K as K0 K. inversion F1; subst. inversion F2; subst. cbn [pipeline_trace_with].
    assert (SS : step_trace a inp o = step_trace b inp o).
    { apply (pass_same table d); auto. intros m x -> EX. apply (U [] m s1 inp x); auto. }
    rewrite <- SS. destruct (step_trace a inp o) as [r| |] eqn:ER; cbn [bind]; auto.
    rewrite (IH s2 (outputs r)); auto. intros before m after text x Es Tr. apply (U (a :: before) m after text x); [rewrite Es; reflexivity|].
    cbn [pipeline_translate_with]. rewrite step_translate, ER. cbn [bind]. exact Tr. }
  pose proof (A t1 t2 input F1 F2 K U) as Q. split; [exact Q|].
  destruct t1 as [|s1 t1]; [destruct t2; [reflexivity|discriminate]|].
  assert (N2 : t2 <> []) by (destruct t2; discriminate).
  rewrite !translate_traced, Q by (assumption || discriminate). reflexivity.
Qed.
(** In particular two compilations of one table. *)
Theorem C05_compiled_twice : forall order1 order2 order1' order2' table d t1 t2,
  (forall l, Permutation (order1 l) l) -> (forall l, Permutation (order2 l) l) ->
  (forall l, Permutation (order1' l) l) -> (forall l, Permutation (order2' l) l) ->
  compile order1 order2 table d = TOk t1 -> compile order1' order2' table d = TOk t2 ->
  Forall (built d table) t1 /\ Forall (built d table) t2 /\ map kind t1 = map kind t2.
Proof.
  intros order1 order2 order1' order2' table d t1 t2 O1 O2 P1 P2 E1 E2.
  destruct (compile_built is_alphabetic compat read_dictionary order1 order2 table d t1 O1 O2 E1) as [F1 K1].
  destruct (compile_built is_alphabetic compat read_dictionary order1' order2' table d t2 P1 P2 E2) as [F2 K2].
  split; [exact F1|]. split; [exact F2|congruence].
Qed.

(** ** C37 *)
(** the opcodes that define a character or add to a class of cells *)
Definition defines_characters (r : rule) : Prop :=
  match r with
  | RSpace _ _ _ | RPunctuation _ _ _ | RDigit _ _ _ | RLitdigit _ _ _ | RLetter _ _ _ | RLowercase _ _ _ | RUppercase _ _ _
  | RSign _ _ _ | RMath _ _ _ | RHyphen _ _ _ => True
  | RAlways chars _ _ _ => forallb is_alphabetic chars = true
  | _ => False
  end.
Lemma context_without l1 r l2 : ~ defines_characters r -> rule_constraints r <> None ->
  context_compile is_alphabetic compat (l1 ++ r :: l2) = context_compile is_alphabetic compat (l1 ++ l2).
Proof.
  intros ND NC. unfold context_compile.
  assert (S1 : forall y, context_step1 is_alphabetic compat y r = y).
  { intros y. destruct r; cbn in *; try (destruct (ND Coq.Init.Logic.I); fail); try (destruct (NC eq_refl); fail); auto.
    destruct (forallb is_alphabetic chars); [destruct (ND eq_refl)|reflexivity]. }
  assert (S2 : forall y, context_step2 compat y r = TOk y).
  { intros y. destruct r; cbn in *; try (destruct (NC eq_refl); fail); reflexivity. }
  rewrite !fold_left_app. cbn [fold_left]. rewrite S1. generalize (fold_left (context_step1 is_alphabetic compat) l2 (fold_left (context_step1 is_alphabetic compat) l1 context_empty)) as y.
  intros y. revert y. induction l1 as [|q l1 IH]; intros y; cbn [app context_fold2].
  - rewrite S2. reflexivity.
  - destruct (context_step2 compat y q); cbn [tbind]; auto.
Qed.
Lemma unmeant_out d l1 r l2 : ~ (marked_nofor r /\ marked_noback r) -> ~ meant_for d r ->
  filter (is_direction d) (l1 ++ r :: l2) = filter (is_direction d) (l1 ++ l2) /\ rule_constraints r <> None.
Proof.
  intros M N. assert (E : is_direction d r = false).
  { destruct (is_direction d r) eqn:E; [|reflexivity]. apply (is_direction_meant d r M) in E. contradiction. }
  split; [rewrite !filter_app; cbn [filter]; rewrite E; reflexivity|].
  intros X. unfold is_direction in E. rewrite X in E. discriminate.
Qed.
(** A rule not meant for the direction - marked nofor and the direction is forward, or noback
    and backward - leaves no trace in the translator, unless it defines characters. *)
Theorem C37_unmeant_rules_are_not_used : forall order1 order2 d l1 r l2,
  ~ (marked_nofor r /\ marked_noback r) -> ~ meant_for d r -> ~ defines_characters r ->
  compile order1 order2 (l1 ++ r :: l2) d = compile order1 order2 (l1 ++ l2) d.
Proof.
  intros order1 order2 d l1 r l2 M N ND. destruct (unmeant_out d l1 r l2 M N) as [EF NC].
  unfold pipeline_compile. rewrite (context_without l1 r l2 ND NC), EF. reflexivity.
Qed.
(** The main pass is not changed by any of them, nor are the passes there are. *)
Theorem C37_main_pass_without_unmeant_rules : forall order1 order2 d l1 r l2 t1 t2,
  (forall l, Permutation (order1 l) l) -> (forall l, Permutation (order2 l) l) ->
  ~ (marked_nofor r /\ marked_noback r) -> ~ meant_for d r ->
  compile order1 order2 (l1 ++ r :: l2) d = TOk t1 -> compile order1 order2 (l1 ++ l2) d = TOk t2 ->
  map kind t1 = map kind t2 /\ forall m, In (TPrimary m) t1 <-> In (TPrimary m) t2.
Proof.
  intros order1 order2 d l1 r l2 t1 t2 O1 O2 M N E1 E2. destruct (unmeant_out d l1 r l2 M N) as [EF NC]. split.
  - destruct (compile_built is_alphabetic compat read_dictionary order1 order2 _ d t1 O1 O2 E1) as [_ K1].
    destruct (compile_built is_alphabetic compat read_dictionary order1 order2 _ d t2 O1 O2 E2) as [_ K2]. rewrite K1, K2.
    apply filter_ext. intros k. unfold present. rewrite EF. reflexivity.
  - assert (G : forall table t m, compile order1 order2 table d = TOk t -> (In (TPrimary m) t <->
      exists x, context_compile is_alphabetic compat (filter (is_direction d) table) = TOk x /\
        main_compile is_alphabetic compat read_dictionary order1 order2 d x (filter (is_direction d) table) = TOk m)).
    { clear. intros table t m. unfold pipeline_compile.
      destruct (context_compile is_alphabetic compat table) as [ctx| |]; try discriminate. cbn [tbind].
      assert (NP : forall which make st l, (make = TPre \/ make = TPost) -> multipass_step_of which make st d ctx (filter (is_direction d) table) = TOk l -> ~ In (TPrimary m) l).
      { intros which make st l Mk. unfold multipass_step_of. destruct (filter which _); [intros [= <-] []|].
        destruct (multipass_compile _ _ _ _); try discriminate. cbn [tbind]. intros [= <-] [H|[]]. destruct Mk as [-> | ->]; discriminate. }
      destruct (multipass_step_of is_correct TPre Pre d ctx _) as [s1| |] eqn:E1; try discriminate. cbn [tbind].
      destruct (context_compile is_alphabetic compat (filter (is_direction d) table)) as [x| |] eqn:EX; try discriminate. cbn [tbind].
      destruct (main_compile is_alphabetic compat read_dictionary order1 order2 d x _) as [m0| |] eqn:EM; try discriminate. cbn [tbind].
      destruct (multipass_step_of is_pass2 TPost Post1 d ctx _) as [s2| |] eqn:E2; try discriminate. cbn [tbind].
      destruct (multipass_step_of is_pass3 TPost Post2 d ctx _) as [s3| |] eqn:E3; try discriminate. cbn [tbind].
      destruct (multipass_step_of is_pass4 TPost Post3 d ctx _) as [s4| |] eqn:E4; try discriminate. cbn [tbind]. intros [= <-].
      apply NP in E1, E2, E3, E4; auto.
      assert (Q : In (TPrimary m) (match d with Forward => s1 ++ [TPrimary m0] ++ s2 ++ s3 ++ s4 | Backward => rev (s1 ++ [TPrimary m0] ++ s2 ++ s3 ++ s4) end) <-> m0 = m).
      { destruct d; rewrite <- ?in_rev, !in_app_iff; cbn [In]; (split; [intros [H|[[H|[]]|[H|[H|H]]]]; try contradiction; congruence|intros ->; auto]). }
      cbn [app] in Q. rewrite Q. split; [intros <-; exists x; auto|intros (x' & [= <-] & E); congruence]. }
    intros m. rewrite (G _ _ m E1), (G _ _ m E2), EF. reflexivity.
Qed.
(** A rule without marks is among the rules the passes of either direction are made of. *)
Theorem C37_unmarked_rules_are_used_both_ways : forall d table r, In r table -> ~ marked_nofor r -> ~ marked_noback r ->
  In r (filter (is_direction d) table).
Proof.
  intros d table r I N1 N2. apply filter_In. split; [exact I|]. apply is_direction_meant; [tauto|]. destruct d; assumption.
Qed.
End Translator.
Print Assumptions C04_passes_in_order.
Print Assumptions C04_each_pass_reads_the_previous.
Print Assumptions C04_translate_is_the_last_pass.
Print Assumptions C04_simple_calls.
Print Assumptions C52_only_emphasis_is_used.
Print Assumptions C52_only_output_is_filled_in.
Print Assumptions C53_emphasis_counts_the_text_of_the_main_pass.
Print Assumptions C02_translators_end.
Print Assumptions C05_same_table_same_result.
Print Assumptions C05_compiled_twice.
Print Assumptions C37_unmeant_rules_are_not_used.
Print Assumptions C37_main_pass_without_unmeant_rules.
Print Assumptions C37_unmarked_rules_are_used_both_ways.

(** ** Examples *)
Definition ex_pipeline (d : direction) (table : list rule) : tres (list transformation) :=
  pipeline_compile ex_alpha true ex_dictionary (fun l => l) (fun l => l) table d.
Definition ex_translate (d : direction) (table : list rule) (input : str) (o : options) : option (res str) :=
  match ex_pipeline d table with
  | TOk t => Some (pipeline_translate_with ex_lower ex_upper ex_sort t input o)
  | _ => None
  end.
Definition ex_kinds (d : direction) (table : list rule) : option (list pass) :=
  match ex_pipeline d table with TOk t => Some (map kind t) | _ => None end.
(** correct "aa" to "b", pass2 cell 3 to cell 7, pass4 only backward *)
Definition ex_passes : list rule := ex_letters ++
  [RCorrect [TString (lit "aa")] [ActString (lit "b")] K; RPass2 [TDots (b 3)] [ActDots (b 7)] K;
   RPass4 [TDots (b 9)] [ActDots (b 1)] (mk_constraints true false false)].
Example C04_example :
  ex_kinds Forward ex_passes = Some [CorrectPass; MainPass; Pass2] /\
  ex_kinds Backward ex_passes = Some [Pass4; Pass2; MainPass; CorrectPass] /\
  ex_translate Forward ex_passes (lit "aac") options_default = Some (Ok (bs [7; 9]%N)) /\
  ex_translate Backward ex_passes (bs [9; 1]%N) options_default = Some (Ok (lit "b")).
Proof. repeat split; vm_compute; reflexivity. Qed.
(** the hypotheses of [C02_translators_end] for this table *)
Example C02_example_translator : forall t, ex_pipeline Forward ex_passes = TOk t ->
  forall input o, exists out, pipeline_translate_with ex_lower ex_upper ex_sort t input o = Ok out.
Proof.
  intros t E input o. apply (C02_translators_end ex_alpha ex_lower ex_upper ex_sort true ex_dictionary (fun l => l) (fun l => l) ex_passes Forward t); auto.
  - apply ex_dictionaries.
  - apply ex_rearranges.
  - intros l. eexists. reflexivity.
  - intros trigger k x I. exfalso. repeat (destruct I as [I|I]; [discriminate I|]). destruct I.
Qed.

(** A rule marked nofor that defines a letter changes what a letter is for the forward
    correct rules, so the simple claim that it has no effect is false. *)
Definition ex_nofor_letter : rule := RLetter (ch "x") (b 45) (mk_constraints true false false).
Definition ex_any_letter : list rule :=
  ex_letters ++ [RCorrect [TAttributes [AClass CLetter] None] [ActString (lit "d")] K].
Theorem C37_nofor_has_no_effect_refuted : exists r table input out1 out2,
  marked_nofor r /\ ~ marked_noback r /\
  ex_translate Forward (table ++ [r]) input options_default = Some (Ok out1) /\
  ex_translate Forward table input options_default = Some (Ok out2) /\ out1 <> out2.
Proof.
  exists ex_nofor_letter, ex_any_letter, (lit "x"), (b 25).
  eexists. split; [eexists; split; [reflexivity|reflexivity]|]. split; [intros (k & [= <-] & H); discriminate|].
  split; [vm_compute; reflexivity|]. split; [vm_compute; reflexivity|vm_compute; discriminate].
Qed.
Print Assumptions C37_nofor_has_no_effect_refuted.
Example C37_example_unmeant :
  marked_nofor (RPass4 [TDots (b 9)] [ActDots (b 1)] (mk_constraints true false false)) /\
  ~ meant_for Forward (RPass4 [TDots (b 9)] [ActDots (b 1)] (mk_constraints true false false)).
Proof. split; [eexists; split; reflexivity|]. intros H. apply H. eexists. split; reflexivity. Qed.

(** With a correct rule the emphasis is not counted in characters of the input: of "aac" the
    third character is marked by the span from 1 to 2. *)
Definition ex_italic : list rule :=
  ex_passes ++ [REmphclass (lit "italic"); RBegemph (lit "italic") (b 40) K; REndemph (lit "italic") (b 41) K].
Theorem C53_emphasis_counts_the_input_refuted :
  ex_translate Forward ex_italic (lit "aac") (with_emphasis options_default [mk_span (lit "italic") 1 2]) = Some (Ok (bs [7; 40; 9; 41]%N)) /\
  ex_translate Forward ex_italic (lit "aac") (with_emphasis options_default [mk_span (lit "italic") 2 3]) = Some (Ok (bs [7; 9]%N)).
Proof. split; vm_compute; reflexivity. Qed.
Print Assumptions C53_emphasis_counts_the_input_refuted.

(** Rules without conditions on their neighbours never tie that way. *)
Definition unconditional (p : list edge) : bool := forallb (fun e => match e with ECh _ => true | _ => false end) p.
Lemma unconditional_untied compat ctx d lower l input :
  forallb (fun a => unconditional (ins_path ctx d a)) l = true -> untied compat ctx d lower l input.
Proof.
  intros F q prev f a g a' (l1 & l2 & -> & _) _ _ _ _ (common & e & e' & p & p' & E & _ & _ & C & _).
  rewrite forallb_forall in F. specialize (F a). rewrite in_app_iff in F. specialize (F (or_intror (or_introl eq_refl))).
  unfold unconditional in F. rewrite forallb_forall, E in F. specialize (F e). rewrite in_app_iff in F. specialize (F (or_intror (or_introl eq_refl))).
  destruct e; [discriminate|destruct C..] || (destruct e; try discriminate; destruct C).
Qed.
(** so two translators made of [ex_passes] agree on every text *)
Example C05_example_untied : forall t1 t2 input o,
  Forall (pass_built ex_alpha true ex_dictionary Forward ex_passes) t1 -> Forall (pass_built ex_alpha true ex_dictionary Forward ex_passes) t2 ->
  map kind t1 = map kind t2 ->
  pipeline_translate_with ex_lower ex_upper ex_sort t1 input o = pipeline_translate_with ex_lower ex_upper ex_sort t2 input o.
Proof.
  intros t1 t2 input o F1 F2 E.
  refine (proj2 (C05_same_table_same_result ex_alpha ex_lower ex_upper ex_sort true ex_dictionary ex_passes Forward t1 t2 input o F1 F2 E ex_dictionaries ex_rearranges _)).
  intros before m after text x _ _ EX.
  destruct (context_compile ex_alpha true (filter (is_direction Forward) ex_passes)) as [y| |] eqn:Y; try discriminate. injection EX as <-.
  vm_compute in Y. injection Y as <-.
  split; [|split]; apply unconditional_untied; vm_compute; reflexivity.
Qed.

(** With a tie the iteration order decides. Two rules translate "ab", one after a character
    of the class cls1, one after one of cls2, and "d" is of both. *)
Definition ex_tied : list rule := ex_letters ++
  [RAttribute (lit "cls1") (lit "d"); RAttribute (lit "cls2") (lit "da");
   RAlways (lit "ab") (Explicit (b 15)) K [WAfter (lit "cls1")];
   RAlways (lit "ab") (Explicit (b 51)) K [WAfter (lit "cls2")]].
Definition reversed (n : node) : node := match n with Node t ts => Node t (rev ts) end.
Lemma reversed_shuffle n : shuffle n (reversed n).
Proof.
  destruct n as [t ts]. cbn [reversed]. apply (sh_node t ts ts (rev ts)); [|apply Permutation_rev].
  induction ts as [|[e c] ts IH]; constructor; auto. cbn. split; [reflexivity|apply TrieProofs.shuffle_refl].
Qed.
Definition other_order (m : main_table) : main_table :=
  let p := mt_rules m in
  mk_main_table (mk_ptable (p_undefined p) (p_fallback p) (p_chars p) (reversed (p_trie p)) (p_comp6 p) (p_nocross p)
    (p_match p) (p_context p) (p_dir p) (p_digits p)) (mt_indicators m) (mt_constrainers m) (mt_scanner m).
Lemma other_order_built d x rules m : main_built ex_alpha true ex_dictionary d x rules m ->
  main_built ex_alpha true ex_dictionary d x rules (other_order m).
Proof.
  intros [(p0 & E & S1 & S2 & S3 & R) B2 B3 B4]. constructor; auto.
  exists p0. cbn [other_order mt_rules p_trie p_nocross p_comp6 p_chars p_match p_context p_digits p_undefined p_dir p_fallback].
  split; [exact E|]. split; [|exact (conj S2 (conj S3 R))].
  revert S1. generalize (p_trie (mt_rules m)) as n, (p_trie p0) as n0. intros n n0 Sh.
  inversion Sh as [t ts ts' us F P]. cbn [reversed]. apply (sh_node t ts ts' (rev us)); [exact F|].
  etransitivity; [exact P|apply Permutation_rev].
Qed.
Theorem C05_same_result_refuted : exists m1 m2 x,
  context_compile ex_alpha true (filter (is_direction Forward) ex_tied) = TOk x /\
  pass_built ex_alpha true ex_dictionary Forward ex_tied (TPrimary m1) /\
  pass_built ex_alpha true ex_dictionary Forward ex_tied (TPrimary m2) /\
  pipeline_translate ex_lower ex_upper ex_sort [TPrimary m1] (lit "dab") = Ok (bs [25; 51]%N) /\
  pipeline_translate ex_lower ex_upper ex_sort [TPrimary m2] (lit "dab") = Ok (bs [25; 15]%N).
Proof.
  destruct (ex_compile Forward ex_tied) as [[x m]| |] eqn:E; [|vm_compute in E; discriminate E..].
  assert (T : context_compile ex_alpha true (filter (is_direction Forward) ex_tied) = TOk x).
  { replace (filter (is_direction Forward) ex_tied) with ex_tied by reflexivity. unfold ex_compile in E.
    destruct (context_compile ex_alpha true ex_tied) as [x'| |]; try discriminate E. cbn [tbind] in E.
    destruct (main_compile ex_alpha true ex_dictionary (fun l => l) (fun l => l) Forward x' ex_tied); try discriminate E. cbn [tbind] in E.
    injection E as -> _. reflexivity. }
  pose proof (ex_built _ _ _ _ E) as B.
  exists m, (other_order m), x. split; [exact T|]. split; [exists x; split; [exact T|exact B]|].
  split; [exists x; split; [exact T|apply other_order_built; exact B]|].
  clear B T. vm_compute in E. injection E as <- <-. split; vm_compute; reflexivity.
Qed.
Print Assumptions C05_same_result_refuted.
