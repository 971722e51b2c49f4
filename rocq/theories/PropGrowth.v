(** C74: the translation of a text is at most proportional to the text. *)
From Coq Require Import Permutation Strings.String.
From Coq Require Import List.
From Verif Require Import Base BaseProofs RuleModel TranslationModel TableModel RegexpModel PatternModel
  OperandModel HyphenationModel TrieModel LoopModel PrimaryProofs CompileModel CompileSpec CompileProofs MainTable
  ConstraintModel IndicatorModel EmphSpec MainSpec TraceSpec MainPass
  PassSpec PropMultipass PropPasses PropMain PropMainExamples PipelineModel PipelineSpec PipelineProofs PropPipeline GrowthProofs GrowthMain GrowthPass.

Section Growth.
Variable is_alphabetic : char -> bool.
Variable compat : bool.
Variable table : list rule.
Variable d : direction.
Variable read_dictionary : str -> tres hyph.
Variable lower upper : char -> list char.
Variable sort : list event -> res (list event).
Hypothesis DR : dictionaries_read read_dictionary.
Hypothesis SR : sort_rearranges sort.
(** the library writes a character in upper case with at most [U] characters; this matters to
    back-translation only *)
Variable U : nat.
Hypothesis HU : d = Backward -> forall c, length (upper c) <= U.
Notation translate := (pipeline_translate_with lower upper sort).
Notation trace := (pipeline_trace_with lower upper sort).
Lemma step_grows s : pass_built is_alphabetic compat read_dictionary d table s ->
  exists n, forall input o out, transformation_trace lower upper sort s input o = Ok out ->
    length out <= n * (length input + length (o_emphasis o) + 1) /\ length (outputs out) <= n * (length input + length (o_emphasis o) + 1).
Proof.
  unfold outputs. destruct s as [st ps|m|st ps]; cbn [pass_built].
  - intros (x & _ & _ & C). destruct (pass_grows lower _ _ _ _ _ C) as (n & H). exists n. intros input o out T. cbn [transformation_trace] in T.
    specialize (H input out T). assert (n * (length input + 1) <= n * (length input + length (o_emphasis o) + 1)) by (apply Nat.mul_le_mono_l; lia). lia.
  - intros (x & _ & B). destruct (main_grows _ _ _ _ _ _ lower upper sort m B DR SR U HU) as (n & H). exists n. intros input o out T. exact (H _ _ _ T).
  - intros (x & _ & _ & C). destruct (pass_grows lower _ _ _ _ _ C) as (n & H). exists n. intros input o out T. cbn [transformation_trace] in T.
    specialize (H input out T). assert (n * (length input + 1) <= n * (length input + length (o_emphasis o) + 1)) by (apply Nat.mul_le_mono_l; lia). lia.
Qed.
Lemma all_grow t : Forall (pass_built is_alphabetic compat read_dictionary d table) t -> exists n, forall input o,
  (forall out, translate t input o = Ok out -> length out <= n * (length input + length (o_emphasis o) + 1)) /\
  (forall results, trace t input o = Ok results -> length (List.concat results) <= n * (length input + length (o_emphasis o) + 1)).
Proof.
  induction 1 as [|s t Bs Bt (n & IH)].
  - exists 1. intros input o. split; [intros out [= <-]; lia|intros r [= <-]; cbn; lia].
  - destruct (step_grows s Bs) as (k & H). exists (k + n * (k + 1)). intros input o. set (N := length input + length (o_emphasis o) + 1) in *.
    assert (G : forall p, transformation_trace lower upper sort s input o = Ok p -> length p <= k * N /\ n * (length (outputs p) + length (o_emphasis o) + 1) <= n * (k + 1) * N).
    { intros p E. destruct (H _ _ _ E) as [H1 H2]. fold N in H1, H2. split; [exact H1|]. rewrite <- Nat.mul_assoc. apply Nat.mul_le_mono_l. rewrite Nat.mul_add_distr_r. unfold N at 2. lia. }
    split.
    + intros out. cbn [pipeline_translate_with]. rewrite step_translate. destruct (transformation_trace lower upper sort s input o) as [p| |] eqn:E; cbn [bind]; try discriminate.
      intros T. destruct (G p eq_refl) as [_ G2]. destruct (IH (outputs p) o) as [IH1 _]. specialize (IH1 out T). rewrite Nat.mul_add_distr_r. lia.
    + intros results. cbn [pipeline_trace_with]. destruct (transformation_trace lower upper sort s input o) as [p| |] eqn:E; cbn [bind]; try discriminate.
      destruct (trace t (outputs p) o) as [r| |] eqn:T; cbn [bind]; try discriminate. intros [= <-]. destruct (G p eq_refl) as [G1 G2].
      destruct (IH (outputs p) o) as [_ IH2]. specialize (IH2 r T). cbn [List.concat]. rewrite app_length, Nat.mul_add_distr_r. lia.
Qed.
Variable order1 order2 : list str -> list str.
Hypothesis O1 : permuting order1.
Hypothesis O2 : permuting order2.

(** For every translator there is a number such that no translation is longer than that
    number times the length of the text and the number of emphasised stretches (and one). *)
Theorem C74_output_is_proportional : forall t,
  pipeline_compile is_alphabetic compat read_dictionary order1 order2 table d = TOk t ->
  exists n, forall input o out, translate t input o = Ok out -> length out <= n * (length input + length (o_emphasis o) + 1).
Proof.
  intros t E. destruct (compile_built is_alphabetic compat read_dictionary order1 order2 table d t O1 O2 E) as [Bt _].
  destruct (all_grow t Bt) as (n & H). exists n. intros input o out. apply H.
Qed.
(** The same holds of the number of the pieces of all passes together: so many rules are
    applied, signs placed and characters copied. *)
Theorem C74_pieces_are_proportional : forall t,
  pipeline_compile is_alphabetic compat read_dictionary order1 order2 table d = TOk t ->
  exists n, forall input o results, trace t input o = Ok results -> length (List.concat results) <= n * (length input + length (o_emphasis o) + 1).
Proof.
  intros t E. destruct (compile_built is_alphabetic compat read_dictionary order1 order2 table d t O1 O2 E) as [Bt _].
  destruct (all_grow t Bt) as (n & H). exists n. intros input o results. apply H.
Qed.
End Growth.
Print Assumptions C74_output_is_proportional.
Print Assumptions C74_pieces_are_proportional.

(** A single pass, with the number: at a position at most one piece more than there are
    rules in the pass inserts text. *)
Theorem C74_rules_applied : forall lower rules d st x ps text out,
  multipass_compile rules d st x = TOk ps -> multipass_trace lower ps st text = Ok out ->
  length out <= (length rules + 2) * (length text + 1).
Proof.
  intros lower rules d st x ps text out C T. pose proof (pass_count lower rules d st x ps C text out T) as H.
  assert (L : length ps <= length rules).
  { clear -C. revert ps C. induction rules as [|r rules IH]; intros ps C; cbn [multipass_compile] in C; [injection C as <-; cbn; lia|].
    assert (Y : forall q, multipass_compile rules d st x = TOk q -> length q <= length (r :: rules)) by (intros q E; cbn [length]; specialize (IH q E); lia).
    assert (X : forall (skip : bool) test action, (if skip then multipass_compile rules d st x else
      tdo p <- context_insert x test action r st; tdo q <- multipass_compile rules d st x; TOk (p :: q)) = TOk ps -> length ps <= length (r :: rules)).
    { intros [] test action; [apply Y|]. destruct (context_insert x test action r st) as [p| |]; cbn [tbind]; try discriminate.
      destruct (multipass_compile rules d st x) as [q| |] eqn:E; cbn [tbind]; try discriminate. intros [= <-]. cbn [length]. specialize (IH q eq_refl). lia. }
    destruct r; try (apply Y, C); exact (X _ _ _ C). }
  eapply Nat.le_trans; [exact H|]. eapply Nat.le_trans; [apply Nat.le_trans with ((length ps + 2) * (length text + 1)); [rewrite Nat.mul_add_distr_l; lia|apply Nat.le_refl]|].
  apply Nat.mul_le_mono_r. lia.
Qed.
Print Assumptions C74_rules_applied.

(** ** Examples *)
(** Three rules that insert a cell wherever they are tried; at the end of the text too. *)
Definition ex_insertions : list rule := ex_letters ++
  [RPass2 [TReplace []] [ActDots (b 2)] K; RPass2 [TReplace []] [ActDots (b 4)] K; RPass2 [TReplace []] [ActDots (b 8)] K].
(** the same with context rules and words: a piece that replaces text makes room for them again *)
Definition ex_main_insertions : list rule := ex_letters ++
  [RContext [TReplace []; TAttributes [AClass CLetter] (Some QOneOrMore)] [ActDots (b 4)] K; RContext [TReplace []] [ActDots (b 8)] K; RAlways (lit "a") (Explicit (b 1)) K []; RAlways (lit "b") (Explicit (b 3)) K []].
Example C74_example :
  ex_translate Forward ex_insertions (lit "ab") options_default = Some (Ok (bs [8; 4; 2; 1; 3]%N)) /\
  ex_translate Forward ex_main_insertions (lit "ab") options_default = Some (Ok (bs [4; 1; 4; 3; 8]%N)) /\
  ex_translate Forward ex_insertions [] options_default = Some (Ok (bs [8; 4; 2]%N)).
Proof. vm_compute. repeat split; reflexivity. Qed.
(** So the length of the text alone does not bound the translation. *)
Theorem C74_bounded_by_the_text_refuted : exists t, ex_pipeline Forward ex_insertions = TOk t /\
  forall n, exists input out, pipeline_translate_with ex_lower ex_upper ex_sort t input options_default = Ok out /\ n * length input < length out.
Proof.
  destruct (ex_pipeline Forward ex_insertions) as [t| |] eqn:E; [|vm_compute in E; discriminate E..]. exists t. split; [reflexivity|].
  intros n. exists []. destruct C74_example as (_ & _ & X). unfold ex_translate in X. rewrite E in X. injection X as X. eexists. split; [exact X|]. cbn. lia.
Qed.
Print Assumptions C74_bounded_by_the_text_refuted.
