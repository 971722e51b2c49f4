(** C77: tables of plain contractions back-translate by longest match. *)
From Coq Require Import Permutation Strings.String.
From Coq Require Import List.
From Verif Require Import Base BaseProofs RuleModel ClassSpec TranslationModel TableModel TableProofs WordSpec RegexpModel PatternModel HyphenationModel TrieModel
  LoopModel MultipassProofs CompileModel CompileSpec CompileProofs MainTable ConstraintModel ConstraintSpec ConstraintProofs IndicatorModel EmphSpec
  MainSpec TraceSpec MainPass PropMultipass PropMain PropMainExamples PipelineModel PipelineSpec PipelineProofs
  PropPipeline DefinitionSpec UndefinedSpec SaysSpec LongestSpec LongestProofs PropLongest LongestBackSpec LongestBackProofs.

Section Translator.
Variable is_alphabetic : char -> bool.
Variable lower upper : char -> list char.
Variable sort : list event -> res (list event).
Variable compat : bool.
Variable read_dictionary : str -> tres hyph.
Hypothesis DR : dictionaries_read read_dictionary.
Hypothesis SORT : sort_rearranges sort.
Notation compile := (pipeline_compile is_alphabetic compat read_dictionary).
Notation translate := (pipeline_translate_with lower upper sort).
Notation an_order o := (forall l : list str, Permutation (o l) l).
Variable table : list rule.
(** the rules that take part in backward translation *)
Notation rules := (filter (is_direction Backward) table).
Hypothesis PL : forall r, In r rules -> plain r = true.
Variable order1 order2 : list str -> list str.
Hypothesis O1 : an_order order1.
Hypothesis O2 : an_order order2.
Variable t : list transformation.
Hypothesis E : compile order1 order2 table Backward = TOk t.
Variable x : context.
Hypothesis EX : context_compile is_alphabetic compat rules = TOk x.

Lemma only_main_back : exists m, t = [TPrimary m] /\ main_built is_alphabetic compat read_dictionary Backward x rules m.
Proof.
  destruct (compile_built is_alphabetic compat read_dictionary order1 order2 table Backward t O1 O2 E) as [F K].
  assert (KM : map kind t = [MainPass]).
  { rewrite K. clear K. assert (N : forall k, k <> MainPass -> present table Backward k = false).
    { intros k Nk. assert (X : existsb (opcode_of k) rules = false); [|destruct k; [exact X|congruence|exact X|exact X|exact X]].
      destruct (existsb _ _) eqn:Ex; [|reflexivity]. apply existsb_exists in Ex. destruct Ex as (r & Hr & O).
      apply PL in Hr. destruct r; try discriminate; destruct k; discriminate. }
    cbn [pass_order filter]. rewrite (N CorrectPass), (N Pass2), (N Pass3), (N Pass4) by discriminate. reflexivity. }
  destruct t as [|s [|s' t']]; try discriminate KM. inversion F as [|s0 l0 Bs _]. subst.
  destruct s as [st ps|m|st ps]; try discriminate KM; [|destruct st; discriminate KM]. destruct Bs as (x' & EX' & Bm). rewrite EX in EX'. injection EX' as <-. exists m. auto.
Qed.

(** Every line of cells is translated, by what the longest match tells. *)
Theorem C77_back_translation : forall u o, ordinary u o -> exists out, translate t u o = Ok out /\ reads_back lower compat x rules u out.
Proof.
  intros u o [UC NC]. destruct only_main_back as (m & -> & B).
  destruct (trace_returns_back is_alphabetic compat read_dictionary x rules lower upper sort m B DR PL u (o_emphasis o)) as (l & El).
  exists (outputs l). split; [cbn; unfold main_translate; rewrite El; reflexivity|].
  exact (trace_reads_back is_alphabetic compat read_dictionary x rules lower upper sort m B EX PL u (o_emphasis o) l NC UC El).
Qed.
(** There is only one way to read the cells. *)
Theorem C77_one_reading : forall u a b, reads_back lower compat x rules u a -> reads_back lower compat x rules u b -> a = b.
Proof. intros u a b Ra Rb. exact (reads_back_unique compat x rules lower u a Ra b Rb). Qed.
Theorem C77_back_translation_iff : forall u o out, ordinary u o -> (translate t u o = Ok out <-> reads_back lower compat x rules u out).
Proof.
  intros u o out H. destruct (C77_back_translation u o H) as (out' & E' & R). split.
  - intros E2. rewrite E' in E2. injection E2 as <-. exact R.
  - intros R'. rewrite (C77_one_reading u out out' R' R). exact E'.
Qed.
End Translator.
Print Assumptions C77_back_translation.
Print Assumptions C77_one_reading.
Print Assumptions C77_back_translation_iff.

(** ** Examples *)
Example ex_plain_back : forall r, In r (filter (is_direction Backward) ex_plain) -> plain r = true.
Proof. apply forallb_forall. vm_compute. reflexivity. Qed.
Definition ex_cells : str := bs [7; 31; 0; 15; 62; 1; 63; 5]%N.
Example C77_ordinary : ordinary ex_cells options_default.
Proof.
  split; [|intros s []]. intros c H. vm_compute in H. repeat (destruct H as [<-|H]; [reflexivity|]). destruct H.
Qed.
(** the cell 5 is not there; the code is spelled with the table's own cells where it has them *)
Example C77_example_values :
  ex_translate Backward (ex_plain ++ [always "cd" (bs [7; 31]%N)]) ex_cells options_default = Some (Ok (lit "cd ab1aa2" ++ bs [51; 45; 3; 38; 52; 34]%N)).
Proof. vm_compute. reflexivity. Qed.
(** the hypotheses are met *)
Example C77_example : forall t, ex_pipeline Backward ex_plain = TOk t -> exists x out,
  context_compile ex_alpha true ex_plain = TOk x /\
  pipeline_translate_with ex_lower ex_upper ex_sort t ex_cells options_default = Ok out /\ reads_back ex_lower true x ex_plain ex_cells out.
Proof.
  unfold ex_pipeline. intros t. pose proof ex_plain_back as PL. pose proof C77_ordinary as OR. revert PL OR.
  assert (EQ : filter (is_direction Backward) ex_plain = ex_plain) by reflexivity. revert EQ. generalize ex_plain ex_cells. intros table u EQ PL OR E.
  destruct (context_compile ex_alpha true table) as [x| |] eqn:EX.
  - rewrite <- EQ in EX. destruct (C77_back_translation ex_alpha ex_lower ex_upper ex_sort true ex_dictionary ex_dictionaries table PL (fun l => l) (fun l => l) (fun l => Permutation_refl l) (fun l => Permutation_refl l) t E x EX u options_default OR) as (out & H1 & H2).
    rewrite EQ in H2. exists x, out. auto.
  - exfalso. unfold pipeline_compile in E. rewrite EX in E. discriminate E.
  - exfalso. unfold pipeline_compile in E. rewrite EX in E. discriminate E.
Qed.
(** a reading, worked out: of the rules with the cell 1 the definition of [a] comes before those
    of [A] and of the digit *)
Example C77_reading : forall x, reads_back ex_lower true x ex_letters (b 1) (lit "a").
Proof.
  intros x. apply (BackRule ex_lower true x ex_letters (b 1) (b 1) (lit "a") []); [|constructor]. split; [|split].
  - split; [discriminate|]. split; [exists (RLowercase (ch "a") (b 1) K); split; [cbn; tauto|exists (lit "a"); split; reflexivity]|]. split; [|cbn; lia].
    exists (b 1), []. split; [reflexivity|]. repeat constructor.
  - intros dots (_ & _ & BG & _). apply begins_length in BG. exact BG.
  - exists (RLowercase (ch "a") (b 1) K). split; [|split; reflexivity]. right. split.
    { intros s Hs ((t & g & k & w & ->) & _). cbn [In ex_letters] in Hs. repeat (destruct Hs as [Hs|Hs]; [discriminate Hs|]). destruct Hs. }
    right. split.
    { intros s Hs ((c & g & k & ->) & _). cbn [In ex_letters] in Hs. repeat (destruct Hs as [Hs|Hs]; [discriminate Hs|]). destruct Hs. }
    exists (firstn 2 ex_letters), (skipn 3 ex_letters). split; [reflexivity|]. split; [exists (lit "a"); split; reflexivity|].
    intros s Hs (text & SY). cbn [In ex_letters firstn] in Hs. destruct Hs as [<-|[<-|[]]]; destruct SY as [_ SY]; discriminate SY.
Qed.
(** It is not the first rule with the dots that is read: a contraction goes before a letter. *)
Theorem C77_first_rule_refuted : ex_translate Backward (ex_letters ++ [always "ab" (b 1)]) (b 1) options_default = Some (Ok (lit "ab")).
Proof. vm_compute. reflexivity. Qed.
(** Nor are unknown cells kept or left out. *)
Theorem C77_unknown_refuted : ex_translate Backward (ex_letters ++ [RUndefined (b 63)]) (bs [1; 5]%N) options_default = Some (Ok (lit "a" ++ b 63)).
Proof. vm_compute. reflexivity. Qed.
Print Assumptions C77_first_rule_refuted.
Print Assumptions C77_unknown_refuted.
