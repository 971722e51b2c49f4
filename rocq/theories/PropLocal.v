(** C64: texts are translated word by word. *)
From Coq Require Import Permutation Strings.String.
From Coq Require Import List.
From Verif Require Import Base BaseProofs RuleModel TranslationModel TableModel TableProofs RegexpModel PatternModel HyphenationModel TrieModel
  LoopModel CompileModel CompileSpec CompileProofs MainTable ConstraintModel ConstraintSpec ConstraintProofs IndicatorModel EmphSpec
  MainSpec TraceSpec MainPass PropMultipass PropMain PropMainExamples PipelineModel PipelineSpec PipelineProofs
  PropPipeline FrameSpec LocalSpec LocalProofs LocalPass.

Section Translator.
Variable is_alphabetic : char -> bool.
Variable lower upper : char -> list char.
Variable sort : list event -> res (list event).
Variable compat : bool.
Variable read_dictionary : str -> tres hyph.
Notation compile := (pipeline_compile is_alphabetic compat read_dictionary).
Notation translate := (pipeline_translate lower upper sort).
Notation an_order o := (forall l : list str, Permutation (o l) l).
Variable table : list rule.
(** the rules that take part in forward translation *)
Notation rules := (filter (is_direction Forward) table).
Variable sp : char.
Hypothesis W : wordwise lower compat rules sp.
Hypothesis DR : dictionaries_read read_dictionary.
Variable order1 order2 : list str -> list str.
Hypothesis O1 : an_order order1.
Hypothesis O2 : an_order order2.
Variable t : list transformation.
Hypothesis E : compile order1 order2 table Forward = TOk t.

Lemma the_main_pass : exists m x, t = [TPrimary m] /\ context_compile is_alphabetic compat rules = TOk x /\ main_built is_alphabetic compat read_dictionary Forward x rules m.
Proof.
  destruct (compile_built is_alphabetic compat read_dictionary order1 order2 table Forward t O1 O2 E) as [F K].
  assert (KM : map kind t = [MainPass]).
  { rewrite K. clear K. assert (N : forall k, k <> MainPass -> present table Forward k = false).
    { intros k Nk. assert (X : existsb (opcode_of k) rules = false); [|destruct k; [exact X|congruence|exact X|exact X|exact X]].
      destruct (existsb _ _) eqn:Ex; [|reflexivity]. apply existsb_exists in Ex. destruct Ex as (r & Hr & O).
      apply (ww_rules _ _ _ _ W) in Hr. destruct r; try discriminate; destruct k; discriminate. }
    cbn [pass_order filter]. rewrite (N CorrectPass), (N Pass2), (N Pass3), (N Pass4) by discriminate. reflexivity. }
  destruct t as [|s [|s' t']]; try discriminate KM. inversion F as [|s0 l0 Bs _]. subst.
  destruct s as [st ps|m|st ps]; try discriminate KM; [|destruct st; discriminate KM]. destruct Bs as (x & EX & Bm). exists m, x. auto.
Qed.
Lemma translate_main m input out : main_trace lower upper sort m input [] = Ok out -> translate [TPrimary m] input = Ok (outputs out).
Proof. intros H. cbn. unfold main_translate. rewrite H. reflexivity. Qed.

(** Two words: the translation of the text is that of the first, of the separator and of the
    second. *)
Theorem C64_two_words : forall u v, exists a s b,
  translate t u = Ok a /\ translate t [sp] = Ok s /\ translate t v = Ok b /\ translate t (u ++ sp :: v) = Ok (a ++ s ++ b).
Proof.
  intros u v. destruct the_main_pass as (m & x & -> & EX & B).
  pose proof (trace_cut is_alphabetic compat read_dictionary x rules lower upper sort m sp B DR EX W) as TC.
  destruct (TC u v) as (ou & ov & p & Eu & Ev & Ep & Ew). destruct (TC [] []) as (o1 & o2 & p' & E1 & E2 & Ep' & E3). rewrite Ep in Ep'. injection Ep' as <-.
  pose proof (trace_empty is_alphabetic compat read_dictionary x rules lower upper sort m sp B DR EX W) as Z. rewrite Z in E1, E2. injection E1 as <-. injection E2 as <-.
  exists (outputs ou), (outputs [p]), (outputs ov). cbn [app] in E3. split; [exact (translate_main m u ou Eu)|]. split; [exact (translate_main m [sp] [p] E3)|].
  split; [exact (translate_main m v ov Ev)|]. rewrite (translate_main m _ _ Ew). f_equal. unfold outputs. rewrite flat_map_app. cbn [flat_map]. rewrite app_nil_r. reflexivity.
Qed.

(** Any number of words. *)
Theorem C64_words : forall ws, exists s,
  translate t [sp] = Ok s /\ exists outs, Forall2 (fun w o => translate t w = Ok o) ws outs /\ translate t (spaced [sp] ws) = Ok (spaced s outs).
Proof.
  intros ws. destruct (C64_two_words [] []) as (a0 & s & b0 & E0 & Es & _ & _). exists s. split; [exact Es|].
  assert (Z : translate t [] = Ok []).
  { destruct the_main_pass as (m & x & -> & EX & B). exact (translate_main m [] [] (trace_empty is_alphabetic compat read_dictionary x rules lower upper sort m sp B DR EX W)). }
  induction ws as [|w ws IH]; [exists []; split; [constructor|exact Z]|].
  destruct IH as (outs & F & Er). destruct (C64_two_words w (spaced [sp] ws)) as (a & s' & b & Ea & Es' & Eb & Ew). rewrite Es in Es'. injection Es' as <-. rewrite Er in Eb. injection Eb as <-.
  exists (a :: outs). split; [constructor; assumption|]. destruct F as [|w' o' ws outs Ew' F].
  - cbn [spaced]. exact Ea.
  - exact Ew.
Qed.
End Translator.
Print Assumptions C64_two_words.
Print Assumptions C64_words.

(** ** Examples *)
Definition ex_wordwise : list rule :=
  ex_letters ++ [RWord (lit "cd") (Explicit (b 30)) K []; RBegword (lit "ba") (Explicit (b 14)) K []; always "ab" (b 15); RNumsign (b 60);
    RCapsletter (b 32) K; RBegcapsword (bs [32; 32]%N) K; RPostpunc (lit ".") (b 19) K].
Example ex_wordwise_ok : wordwise ex_lower true (filter (is_direction Forward) ex_wordwise) 32%N.
Proof.
  assert (A : forall r, In r ex_wordwise -> beyond_words r = false /\ (forall s, text_of r = Some s -> ~ In 32%N s) /\ ~ In 32%N (mode_chars r)).
  { intros r H. repeat (destruct H as [<-|H]; [split; [reflexivity|]; split; [intros s Es; try discriminate Es; injection Es as <-; cbn; intuition discriminate|cbn; tauto]|]). destruct H. }
  change (filter (is_direction Forward) ex_wordwise) with ex_wordwise. constructor.
  - intros r H. apply A, H.
  - intros r s H. apply A, H.
  - intros r H. apply A, H.
  - intros k. split.
    + intros H. inversion H as [r k' c I1 I2|r k' cs c I1 I2 I3|pre n c b' post s E0|pre n c b' post s E0]; subst.
      * repeat (destruct I1 as [<-|I1]; [cbn in I2; repeat (destruct I2 as [I2|I2]; [try discriminate I2; congruence|]); try destruct I2|]). destruct I1.
      * repeat (destruct I1 as [<-|I1]; [discriminate I2|]). destruct I1.
      * assert (I : In (RBase n 32%N b') ex_wordwise) by (rewrite E0; apply in_elt). repeat (destruct I as [I|I]; [discriminate I|]). destruct I.
      * assert (I : In (RBase n 32%N b') ex_wordwise) by (rewrite E0; apply in_elt). repeat (destruct I as [I|I]; [discriminate I|]). destruct I.
    + intros ->. eapply ic_defined; [left; reflexivity|]. left. reflexivity.
  - reflexivity.
Qed.
Example C64_example : forall t, ex_pipeline Forward ex_wordwise = TOk t ->
  exists s, pipeline_translate ex_lower ex_upper ex_sort t [32%N] = Ok s /\
  exists outs, Forall2 (fun w o => pipeline_translate ex_lower ex_upper ex_sort t w = Ok o) [lit "cd"; lit "12"; lit "AB."] outs /\
  pipeline_translate ex_lower ex_upper ex_sort t (spaced [32%N] [lit "cd"; lit "12"; lit "AB."]) = Ok (spaced s outs).
Proof.
  unfold ex_pipeline. generalize ex_wordwise_ok. generalize ex_wordwise. intros table W t E.
  exact (C64_words ex_alpha ex_lower ex_upper ex_sort true ex_dictionary table 32%N W ex_dictionaries (fun l => l) (fun l => l)
    (fun l => Permutation_refl l) (fun l => Permutation_refl l) t E [lit "cd"; lit "12"; lit "AB."]).
Qed.
Example C64_example_text : spaced [32%N] [lit "cd"; lit "12"; lit "AB."] = lit "cd 12 AB.".
Proof. reflexivity. Qed.
Example C64_example_values :
  ex_translate Forward ex_wordwise (lit "cd 12 AB.") options_default = Some (Ok (bs [30; 0; 60; 1; 3; 0; 32; 32; 15; 19]%N)) /\
  ex_translate Forward ex_wordwise (lit "AB.") options_default = Some (Ok (bs [32; 32; 15; 19]%N)).
Proof. split; [vm_compute; reflexivity|]. vm_compute. reflexivity. Qed.

(** Rules that look beyond words do not translate word by word: a lettersign stands before an
    isolated letter at the beginning of the text, but not after a space. *)
Definition not_by_words (table : list rule) (u v : str) : Prop := exists a s b w,
  ex_translate Forward table u options_default = Some (Ok a) /\ ex_translate Forward table [32%N] options_default = Some (Ok s) /\
  ex_translate Forward table v options_default = Some (Ok b) /\ ex_translate Forward table (u ++ 32%N :: v) options_default = Some (Ok w) /\ w <> a ++ s ++ b.
Theorem C64_lettersigns_refuted : not_by_words (ex_letters ++ [RLetsign (b 48)]) (lit "a") (lit "a").
Proof. do 4 eexists. split; [vm_compute; reflexivity|]. split; [vm_compute; reflexivity|]. split; [vm_compute; reflexivity|]. split; [vm_compute; reflexivity|]. discriminate. Qed.
Theorem C64_phrases_refuted : not_by_words (ex_letters ++ [RBegcapsword (bs [32; 32]%N) K; RBegcapsphrase (bs [32; 32; 32]%N)]) (lit "AB") (lit "CD").
Proof. do 4 eexists. split; [vm_compute; reflexivity|]. split; [vm_compute; reflexivity|]. split; [vm_compute; reflexivity|]. split; [vm_compute; reflexivity|]. discriminate. Qed.
(** So does a rule with a space in its text. *)
Theorem C64_spaces_in_rules_refuted : not_by_words (ex_letters ++ [always "a b" (b 15)]) (lit "a") (lit "b").
Proof. do 4 eexists. split; [vm_compute; reflexivity|]. split; [vm_compute; reflexivity|]. split; [vm_compute; reflexivity|]. split; [vm_compute; reflexivity|]. discriminate. Qed.
Print Assumptions C64_lettersigns_refuted.
Print Assumptions C64_phrases_refuted.
Print Assumptions C64_spaces_in_rules_refuted.
