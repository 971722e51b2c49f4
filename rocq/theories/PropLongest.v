(** C76: tables of plain contractions translate by longest match. *)
From Coq Require Import Permutation Strings.String.
From Coq Require Import List.
From Verif Require Import Base BaseProofs RuleModel ClassSpec TranslationModel TableModel TableProofs WordSpec RegexpModel PatternModel HyphenationModel TrieModel
  LoopModel MultipassProofs CompileModel CompileSpec CompileProofs MainTable ConstraintModel ConstraintSpec ConstraintProofs IndicatorModel EmphSpec
  MainSpec TraceSpec MainPass PropMultipass PropMain PropMainExamples PipelineModel PipelineSpec PipelineProofs
  PropPipeline DefinitionSpec UndefinedSpec SaysSpec CaseSpec CaseProofs LongestSpec LongestProofs.

Section Translator.
Variable is_alphabetic : char -> bool.
Variable lower upper : char -> list char.
Variable sort : list event -> res (list event).
Variable compat : bool.
Variable read_dictionary : str -> tres hyph.
Hypothesis DR : dictionaries_read read_dictionary.
Hypothesis SORT : sort_rearranges sort.
Notation compile := (pipeline_compile is_alphabetic compat read_dictionary).
Notation translate := (pipeline_translate_with lower upper sort).
Notation an_order o := (forall l : list str, Permutation (o l) l).
Variable table : list rule.
(** the rules that take part in forward translation *)
Notation rules := (filter (is_direction Forward) table).
Hypothesis PL : forall r, In r rules -> plain r = true.
Variable order1 order2 : list str -> list str.
Hypothesis O1 : an_order order1.
Hypothesis O2 : an_order order2.
Variable t : list transformation.
Hypothesis E : compile order1 order2 table Forward = TOk t.
Variable x : context.
Hypothesis EX : context_compile is_alphabetic compat rules = TOk x.

Lemma only_main_pass : exists m, t = [TPrimary m] /\ main_built is_alphabetic compat read_dictionary Forward x rules m.
Proof.
  destruct (compile_built is_alphabetic compat read_dictionary order1 order2 table Forward t O1 O2 E) as [F K].
  assert (KM : map kind t = [MainPass]).
  { rewrite K. clear K. assert (N : forall k, k <> MainPass -> present table Forward k = false).
    { intros k Nk. assert (X : existsb (opcode_of k) rules = false); [|destruct k; [exact X|congruence|exact X|exact X|exact X]].
      destruct (existsb _ _) eqn:Ex; [|reflexivity]. apply existsb_exists in Ex. destruct Ex as (r & Hr & O).
      apply PL in Hr. destruct r; try discriminate; destruct k; discriminate. }
    cbn [pass_order filter]. rewrite (N CorrectPass), (N Pass2), (N Pass3), (N Pass4) by discriminate. reflexivity. }
  destruct t as [|s [|s' t']]; try discriminate KM. inversion F as [|s0 l0 Bs _]. subst.
  destruct s as [st ps|m|st ps]; try discriminate KM; [|destruct st; discriminate KM]. destruct Bs as (x' & EX' & Bm). rewrite EX in EX'. injection EX' as <-. exists m. auto.
Qed.

(** the text is Unicode and none of it is marked as computer braille *)
Definition ordinary (u : str) (o : options) : Prop :=
  (forall c, In c u -> (c < 16 ^ 6)%N) /\ (forall s, In s (o_emphasis o) -> sp_class s <> computer_braille).

(** Every text is translated, by what the longest match tells. *)
Theorem C76_translation : forall u o, ordinary u o -> exists out, translate t u o = Ok out /\ reads lower compat x rules u out.
Proof.
  intros u o [UC NC]. destruct only_main_pass as (m & -> & B).
  destruct (trace_returns is_alphabetic compat read_dictionary x rules lower upper sort m B DR PL u (o_emphasis o)) as (l & El).
  exists (outputs l). split; [cbn; unfold main_translate; rewrite El; reflexivity|].
  exact (trace_reads is_alphabetic compat read_dictionary x rules lower upper sort m B EX PL SORT u (o_emphasis o) l NC UC El).
Qed.
(** There is only one way to read a text. *)
Theorem C76_one_reading : forall u a b, reads lower compat x rules u a -> reads lower compat x rules u b -> a = b.
Proof.
  intros u a b Ra Rb. destruct only_main_pass as (m & _ & B).
  exact (reads_unique is_alphabetic compat read_dictionary x rules lower upper m B EX u a Ra b Rb).
Qed.
Theorem C76_translation_iff : forall u o out, ordinary u o -> (translate t u o = Ok out <-> reads lower compat x rules u out).
Proof.
  intros u o out H. destruct (C76_translation u o H) as (out' & E' & R). split.
  - intros E2. rewrite E' in E2. injection E2 as <-. exact R.
  - intros R'. rewrite (C76_one_reading u out out' R' R). exact E'.
Qed.
End Translator.
Print Assumptions C76_translation.
Print Assumptions C76_one_reading.
Print Assumptions C76_translation_iff.

(** ** Examples *)
Definition ex_plain : list rule :=
  ex_letters ++ [always "ab" (b 15); always "abc" (b 7); always "ba" (b 60); always "ab" (b 31); always "1a" (b 62); always "2" (b 63)].
Example ex_plain_ok : forall r, In r (filter (is_direction Forward) ex_plain) -> plain r = true.
Proof. apply forallb_forall. vm_compute. reflexivity. Qed.
Example C76_ordinary : ordinary (lit "abcAb 1a2") options_default.
Proof.
  split; [|intros s []]. intros c H. vm_compute in H. repeat (destruct H as [<-|H]; [reflexivity|]). destruct H.
Qed.
(** the longest rule first, then the last of the rules for [ab]; in the number the contraction
    [1a] is not used *)
Example C76_example_values :
  ex_translate Forward ex_plain (lit "abcAb 1a2") options_default = Some (Ok (bs [7; 31; 0; 1; 1; 63]%N)).
Proof. vm_compute. reflexivity. Qed.
(** the hypotheses are met *)
Example C76_example : forall t, ex_pipeline Forward ex_plain = TOk t -> exists x out,
  context_compile ex_alpha true ex_plain = TOk x /\
  pipeline_translate_with ex_lower ex_upper ex_sort t (lit "abcAb 1a2") options_default = Ok out /\ reads ex_lower true x ex_plain (lit "abcAb 1a2") out.
Proof.
  unfold ex_pipeline. intros t. pose proof ex_plain_ok as PL. pose proof C76_ordinary as OR. revert PL OR.
  assert (EQ : filter (is_direction Forward) ex_plain = ex_plain) by reflexivity. revert EQ. generalize ex_plain (lit "abcAb 1a2"). intros table u EQ PL OR E.
  destruct (context_compile ex_alpha true table) as [x| |] eqn:EX.
  - rewrite <- EQ in EX. destruct (C76_translation ex_alpha ex_lower ex_upper ex_sort true ex_dictionary ex_dictionaries ex_rearranges table PL (fun l => l) (fun l => l) (fun l => Permutation_refl l) (fun l => Permutation_refl l) t E x EX u options_default OR) as (out & H1 & H2).
    rewrite EQ in H2. exists x, out. auto.
  - exfalso. unfold pipeline_compile in E. rewrite EX in E. discriminate E.
  - exfalso. unfold pipeline_compile in E. rewrite EX in E. discriminate E.
Qed.
(** a reading, worked out *)
Example C76_reading : forall x, reads ex_lower true x ex_plain (lit "abc2") (bs [7; 63]%N).
Proof.
  intros x.
  assert (AL : forall text g k, In (RAlways text g k []) ex_plain -> In text [lit "ab"; lit "abc"; lit "ba"; lit "1a"; lit "2"]).
  { intros text g k H. cbn [In ex_plain ex_letters app] in H. repeat (destruct H as [H|H]; [try discriminate H; injection H as <- _ _; cbn; tauto|]). destruct H. }
  apply (ReadsRule ex_lower true x ex_plain (lit "abc2") (lit "abc") (b 7) (b 63)).
  - split; [|split].
    + split; [discriminate|]. split; [exists (Explicit (b 7)), K; cbn; tauto|]. split.
      * exists (lit "abc"), (lit "2"). split; [reflexivity|]. repeat constructor.
      * intros _ c [= <-] (g & k & H). cbn [In ex_plain ex_letters app] in H. repeat (destruct H as [H|H]; [try discriminate H|]). destruct H.
    + intros text (_ & (g & k & H) & _). apply AL in H. repeat (destruct H as [<-|H]; [cbn; lia|]). destruct H.
    + exists (Explicit (b 7)), K. split; [|reflexivity]. exists (firstn 13 ex_plain), (skipn 14 ex_plain). split; [reflexivity|]. split; [eauto|].
      intros s Hs (g & k & ->). cbn in Hs. repeat (destruct Hs as [Hs|Hs]; [discriminate Hs|]). destruct Hs.
  - change (skipn (length (lit "abc")) (lit "abc2")) with (lit "2"). apply (ReadsRule ex_lower true x ex_plain (lit "2") (lit "2") (b 63) []); [|constructor]. split; [|split].
    + split; [discriminate|]. split; [exists (Explicit (b 63)), K; cbn; tauto|]. split.
      * exists (lit "2"), []. split; [reflexivity|]. repeat constructor.
      * cbn. lia.
    + intros text (_ & _ & BG & _). apply begins_length in BG. exact BG.
    + exists (Explicit (b 63)), K. split; [|reflexivity]. exists (firstn 17 ex_plain), []. split; [reflexivity|]. split; [eauto|intros s []].
Qed.

(** Two simpler readings are wrong: that the first of several rules for a text counts, as it
    does for the definitions of characters, and that the longest rule is used everywhere. *)
Theorem C76_first_rule_refuted : ex_translate Forward (ex_letters ++ [always "ab" (b 15); always "ab" (b 31)]) (lit "ab") options_default = Some (Ok (b 31)).
Proof. vm_compute. reflexivity. Qed.
Theorem C76_digits_refuted : ex_translate Forward (ex_letters ++ [always "1a" (b 62)]) (lit "1a") options_default = Some (Ok (bs [1; 1]%N)).
Proof. vm_compute. reflexivity. Qed.
Print Assumptions C76_first_rule_refuted.
Print Assumptions C76_digits_refuted.
