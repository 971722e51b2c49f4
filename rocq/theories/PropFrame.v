(** C63: a rule that only offers a translation of its text does nothing in texts where that
    text does not occur. *)
From Coq Require Import Permutation Strings.String.
From Coq Require Import List.
From Verif Require Import Base BaseProofs RuleModel TranslationModel TableModel RegexpModel PatternModel HyphenationModel TrieModel
  LoopModel CompileModel CompileSpec CompileProofs MainTable ConstraintModel ConstraintSpec ConstraintProofs IndicatorModel EmphSpec
  MainSpec TraceSpec MainPass PropMultipass PropMain PropMainExamples PipelineModel PipelineSpec PipelineProofs OrderSpec OrderProofs
  PropPipeline FrameSpec FrameProofs.

Section Translator.
Variable is_alphabetic : char -> bool.
Variable lower upper : char -> list char.
Variable sort : list event -> res (list event).
Variable compat : bool.
Variable read_dictionary : str -> tres hyph.
Notation compile := (pipeline_compile is_alphabetic compat read_dictionary).
Notation built := (pass_built is_alphabetic compat read_dictionary).
Notation step_trace := (transformation_trace lower upper sort).
Notation trace_with := (pipeline_trace_with lower upper sort).
Notation translate_with := (pipeline_translate_with lower upper sort).
Variable d : direction.
Variable a b : list rule.
Variable r : rule.
Variable t : str.
Hypothesis T : translates r = Some t.
(** an always rule for a text of letters: forward, in a table without pass2, pass3 and pass4 *)
Hypothesis Q : makes_letters is_alphabetic r = false \/ d = Forward /\ forall q, In q (a ++ b) -> braille_pass q = false.
Notation without := (a ++ b).
Notation with_rule := (a ++ r :: b).

Lemma no_opcode (f : rule -> bool) l : (forall q, In q l -> f q = false) -> filter f l = [].
Proof. induction l as [|q l IH]; intros H; [reflexivity|]. cbn. rewrite (H q (or_introl eq_refl)). apply IH. intros q0 I. apply H. right. exact I. Qed.
Lemma filter_with : filter (is_direction d) with_rule = filter (is_direction d) a ++ (if is_direction d r then [r] else []) ++ filter (is_direction d) b.
Proof. rewrite filter_app. cbn [filter]. destruct (is_direction d r); reflexivity. Qed.
Lemma opcode_with k : filter (opcode_of k) (filter (is_direction d) with_rule) = filter (opcode_of k) (filter (is_direction d) without).
Proof.
  rewrite filter_with, !filter_app. f_equal. destruct (is_direction d r); [|reflexivity]. cbn [filter app].
  assert (E : opcode_of k r = false) by (destruct r; try discriminate; destruct k; reflexivity). rewrite E. reflexivity.
Qed.
Lemma present_with k : present with_rule d k = present without d k.
Proof.
  unfold present. destruct k; try reflexivity; rewrite filter_with, !filter_app, !existsb_app; f_equal; destruct (is_direction d r); try reflexivity;
    cbn [existsb]; (match goal with |- context [opcode_of ?k r] => assert (E : opcode_of k r = false) by (destruct r; try discriminate; reflexivity); rewrite E end); reflexivity.
Qed.
Definition no_ties (text : str) : Prop := forall x,
  context_compile is_alphabetic compat (filter (is_direction d) without) = TOk x ->
  untied compat (trie_ctx d x) d lower (main_entries d x (filter (is_direction d) without)) text /\
  untied compat (trie_ctx d x) d lower (nocross_entries x (filter (is_direction d) without)) text /\
  untied compat (trie_ctx d x) d lower (comp6_entries x (filter (is_direction d) without)) text.
Definition not_there (text : str) : Prop := forall x,
  context_compile is_alphabetic compat (filter (is_direction d) without) = TOk x -> absent lower d x r text.

Lemma pass_framed s1 s2 text o : dictionaries_read read_dictionary -> sort_rearranges sort ->
  built d without s1 -> built d with_rule s2 -> kind s1 = kind s2 ->
  (forall m, s1 = TPrimary m -> no_ties text /\ not_there text) ->
  step_trace s1 text o = step_trace s2 text o.
Proof.
  intros DR SR B1 B2 EK U.
  assert (PM : forall k st y z ps ps', st = stage_of k -> k <> MainPass ->
     context_compile is_alphabetic compat without = TOk y -> context_compile is_alphabetic compat with_rule = TOk z ->
     multipass_compile (filter (opcode_of k) (filter (is_direction d) without)) d st y = TOk ps ->
     multipass_compile (filter (opcode_of k) (filter (is_direction d) with_rule)) d st z = TOk ps' -> ps = ps').
  { intros k st y z ps ps' Est NM EY EZ M1 M2. rewrite opcode_with in M2. destruct Q as [Q1|[Fw NB]].
    - rewrite (context_quiet is_alphabetic compat a r b t T Q1), EY in EZ. injection EZ as <-. congruence.
    - pose proof (context_framed is_alphabetic compat a r b t y z T EY EZ) as L. destruct k.
      + rewrite (multipass_like _ d st y z) in M1; [congruence|left; exact Est|exact L].
      + congruence.
      + assert (E : filter (opcode_of Pass2) (filter (is_direction d) without) = []) by
          (apply no_opcode; intros q I; apply filter_In in I; specialize (NB q (proj1 I)); destruct q; try reflexivity; discriminate).
        rewrite E in *. cbn in *. congruence.
      + assert (E : filter (opcode_of Pass3) (filter (is_direction d) without) = []) by
          (apply no_opcode; intros q I; apply filter_In in I; specialize (NB q (proj1 I)); destruct q; try reflexivity; discriminate).
        rewrite E in *. cbn in *. congruence.
      + assert (E : filter (opcode_of Pass4) (filter (is_direction d) without) = []) by
          (apply no_opcode; intros q I; apply filter_In in I; specialize (NB q (proj1 I)); destruct q; try reflexivity; discriminate).
        rewrite E in *. cbn in *. congruence. }
  destruct s1 as [st1 ps1|m1|st1 ps1], s2 as [st2 ps2|m2|st2 ps2]; cbn [pass_built kind transformation_trace] in *;
    try (destruct st1; discriminate); try (destruct st2; discriminate); try discriminate.
  - destruct B1 as (y & EY & S1 & C1), B2 as (z & EZ & S2 & C2). rewrite <- S2 in S1. subst st1.
    rewrite (PM CorrectPass st2 y z ps1 ps2); auto. discriminate.
  - destruct B1 as (y & EY & B1), B2 as (z & EZ & B2). destruct (U m1 eq_refl) as [NT AB].
    destruct (NT y EY) as (U1 & U2 & U3). specialize (AB y EY).
    rewrite filter_with in EZ, B2. rewrite filter_app in *. destruct (is_direction d r) eqn:Dr; cbn [app] in EZ, B2.
    + destruct Q as [Q1|[Fw NB]].
      * rewrite (context_quiet is_alphabetic compat _ r _ t T Q1), EY in EZ. injection EZ as <-.
        refine (main_framed is_alphabetic compat read_dictionary d y _ _ r t T (or_intror Q1) lower upper sort SR m1 m2 text (o_emphasis o) B1 B2 U1 U2 U3 _).
        intros e q prev I. exact (entries_absent lower d y r t text e q prev T AB I).
      * pose proof (context_framed is_alphabetic compat _ r _ t y z T EY EZ) as L.
        assert (B2' : main_built is_alphabetic compat read_dictionary d y (filter (is_direction d) a ++ r :: filter (is_direction d) b) m2).
        { apply (main_built_like' is_alphabetic compat read_dictionary d z y); [exact Fw| |exact B2]. unfold like in *. intuition. }
        refine (main_framed is_alphabetic compat read_dictionary d y _ _ r t T (or_introl Fw) lower upper sort SR m1 m2 text (o_emphasis o) B1 B2' U1 U2 U3 _).
        intros e q prev I. exact (entries_absent lower d y r t text e q prev T AB I).
    + rewrite EY in EZ. injection EZ as <-. eapply main_same; eauto.
  - destruct B1 as (y & EY & S1 & C1), B2 as (z & EZ & S2 & C2). rewrite EK in S1, C1. rewrite <- S2 in S1. subst st1.
    assert (N : kind (TPost st2 ps2) <> MainPass) by (destruct st2; discriminate).
    rewrite (PM (kind (TPost st2 ps2)) st2 y z ps1 ps2); auto.
Qed.
(** Two translators of the table without and with the rule, whatever the iteration orders in
    them, agree on every input on whose way the text that comes to the main pass has no ties
    and the text of the rule (backward, its cells) does not occur in it. *)
Theorem C63_absent_rules_do_nothing : forall order1 order2 order1' order2' t1 t2 input o,
  (forall l, Permutation (order1 l) l) -> (forall l, Permutation (order2 l) l) ->
  (forall l, Permutation (order1' l) l) -> (forall l, Permutation (order2' l) l) ->
  compile order1 order2 without d = TOk t1 -> compile order1' order2' with_rule d = TOk t2 ->
  dictionaries_read read_dictionary -> sort_rearranges sort ->
  (forall before m after text, t1 = before ++ TPrimary m :: after -> translate_with before input o = Ok text ->
     no_ties text /\ not_there text) ->
  trace_with t1 input o = trace_with t2 input o /\ translate_with t1 input o = translate_with t2 input o.
Proof.
  intros order1 order2 order1' order2' t1 t2 input o O1 O2 P1 P2 E1 E2 DR SR U.
  destruct (compile_built is_alphabetic compat read_dictionary order1 order2 without d t1 O1 O2 E1) as [F1 K1].
  destruct (compile_built is_alphabetic compat read_dictionary order1' order2' with_rule d t2 P1 P2 E2) as [F2 K2].
  assert (K : map kind t1 = map kind t2) by (rewrite K1, K2; apply filter_ext; intros k; symmetry; apply present_with).
  assert (A : forall s1 s2 inp, Forall (built d without) s1 -> Forall (built d with_rule) s2 -> map kind s1 = map kind s2 ->
     (forall before m after text, s1 = before ++ TPrimary m :: after -> translate_with before inp o = Ok text -> no_ties text /\ not_there text) ->
     trace_with s1 inp o = trace_with s2 inp o).
  { clear - DR SR T Q. induction s1 as [|u s1 IH]; intros [|v s2] inp F1 F2 K U; try discriminate; [reflexivity|].
    injection K as K0 K. inversion F1; subst. inversion F2; subst. cbn [pipeline_trace_with].
    assert (SS : step_trace u inp o = step_trace v inp o).
    { apply pass_framed; auto. intros m ->. apply (U [] m s1 inp); auto. }
    rewrite <- SS. destruct (step_trace u inp o) as [z| |] eqn:ER; cbn [bind]; auto.
    rewrite (IH s2 (outputs z)); auto. intros before m after text Es Tr. apply (U (u :: before) m after text); [rewrite Es; reflexivity|].
    cbn [pipeline_translate_with]. rewrite step_translate, ER. cbn [bind]. exact Tr. }
  pose proof (A t1 t2 input F1 F2 K U) as QQ. split; [exact QQ|].
  destruct t1 as [|s1 t1]; [destruct t2; [reflexivity|discriminate]|].
  assert (N2 : t2 <> []) by (destruct t2; discriminate).
  rewrite !translate_traced, QQ by (assumption || discriminate). reflexivity.
Qed.
End Translator.
Print Assumptions C63_absent_rules_do_nothing.

(** ** Examples *)
Definition ex_without : list rule := ex_letters ++ [always "ab" (b 15)].
Definition ex_cd : rule := RWord (lit "cd") (Explicit (b 30)) K [].
Lemma ex_absent : ~ occurs ex_lower (lit "cd") (lit "abc dab").
Proof.
  intros (before & here & after & E & F). inversion F as [|x1 c1 l1 k1 F1 G]; subst. inversion G as [|x2 c2 l2 k2 F2 G']; subst. inversion G'; subst.
  assert (L : length before < 7) by (apply (f_equal (@length char)) in E; rewrite app_length in E; cbn in E; lia).
  do 7 (destruct before as [|? before]; [cbn in E; inversion E; subst; vm_compute in F1, F2; discriminate|cbn [app] in E; injection E as _ E]).
  cbn in L. lia.
Qed.
Example C63_example : forall t1 t2,
  ex_pipeline Forward ex_without = TOk t1 -> ex_pipeline Forward (ex_without ++ [ex_cd]) = TOk t2 ->
  pipeline_translate_with ex_lower ex_upper ex_sort t1 (lit "abc dab") options_default =
  pipeline_translate_with ex_lower ex_upper ex_sort t2 (lit "abc dab") options_default.
Proof.
  intros t1 t2 E1 E2. replace ex_without with (ex_without ++ []) in E1 by apply app_nil_r.
  refine (proj2 (C63_absent_rules_do_nothing ex_alpha ex_lower ex_upper ex_sort true ex_dictionary Forward ex_without [] ex_cd (lit "cd")
    eq_refl (or_introl eq_refl) (fun l => l) (fun l => l) (fun l => l) (fun l => l) t1 t2 (lit "abc dab") options_default
    (fun l => Permutation_refl l) (fun l => Permutation_refl l) (fun l => Permutation_refl l) (fun l => Permutation_refl l) E1 E2 ex_dictionaries ex_rearranges _)).
  intros before m after text Es Tr.
  assert (B0 : before = []).
  { destruct before as [|s before]; [reflexivity|]. exfalso. unfold ex_pipeline in E1. clear - E1 Es. vm_compute in E1. injection E1 as <-. injection Es as _ Es. destruct before; discriminate Es. }
  subst before. injection Tr as <-. split.
  - intros x EX. destruct (context_compile ex_alpha true (filter (is_direction Forward) (ex_without ++ []))) as [y| |] eqn:Y; try discriminate. injection EX as <-.
    vm_compute in Y. injection Y as <-. split; [|split]; apply unconditional_untied; vm_compute; reflexivity.
  - intros x _ s [= <-]. exact ex_absent.
Qed.
Example C63_example_used :
  ex_translate Forward ex_without (lit "abc dab") options_default = Some (Ok (bs [15; 9; 0; 25; 15]%N)) /\
  ex_translate Forward (ex_without ++ [ex_cd]) (lit "abc dab") options_default = Some (Ok (bs [15; 9; 0; 25; 15]%N)) /\
  ex_translate Forward (ex_without ++ [ex_cd]) (lit "ab cd") options_default = Some (Ok (bs [15; 0; 30]%N)).
Proof. split; [vm_compute; reflexivity|]. split; [vm_compute; reflexivity|]. vm_compute. reflexivity. Qed.

(** An always rule for a text of letters makes its cells letters, in pass2 also where its text
    does not occur: here the cells of the full stop. *)
Definition ex_letter_pass : list rule := ex_letters ++ [RPass2 [TAttributes [AClass CLetter] None] [ActDots (b 63)] K].
Theorem C63_letters_of_always_refuted : exists r t table input out1 out2,
  translates r = Some t /\ ~ occurs ex_lower t input /\
  ex_translate Forward table input options_default = Some (Ok out1) /\
  ex_translate Forward (table ++ [r]) input options_default = Some (Ok out2) /\ out1 <> out2.
Proof.
  exists (always "cd" (b 50)), (lit "cd"), ex_letter_pass, (lit "."), (b 50), (b 63).
  split; [reflexivity|]. split.
  - intros (before & here & after & E & F). inversion F as [|x1 c1 l1 k1 F1 G]; subst. inversion G as [|x2 c2 l2 k2 F2 G']; subst.
    apply (f_equal (@length char)) in E. rewrite app_length in E. cbn in E. lia.
  - split; [vm_compute; reflexivity|]. split; [vm_compute; reflexivity|discriminate].
Qed.
Print Assumptions C63_letters_of_always_refuted.
