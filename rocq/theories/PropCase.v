(** C75: capitals change only the signs. *)
From Coq Require Import Permutation Strings.String.
From Coq Require Import List.
From Verif Require Import Base BaseProofs RuleModel ClassSpec TranslationModel TableModel TableProofs WordSpec RegexpModel PatternModel HyphenationModel TrieModel
  LoopModel MultipassProofs CompileModel CompileSpec CompileProofs MainTable ConstraintModel ConstraintSpec ConstraintProofs IndicatorModel EmphSpec
  MainSpec TraceSpec MainPass PropMultipass PropMain PropMainExamples PipelineModel PipelineSpec PipelineProofs
  PropPipeline DefinitionSpec CaseSpec CaseProofs.

(** the same cells for the same number of characters *)
Definition same_cells (t t' : resolved) : Prop := r_output t = r_output t' /\ r_length t = r_length t'.

Section Translator.
Variable is_alphabetic : char -> bool.
Variable lower upper : char -> list char.
Variable sort : list event -> res (list event).
Variable compat : bool.
Variable read_dictionary : str -> tres hyph.
Hypothesis SORT : sort_rearranges sort.
Notation compile := (pipeline_compile is_alphabetic compat read_dictionary).
Notation trace := (pipeline_trace_with lower upper sort).
Notation translate := (pipeline_translate_with lower upper sort).
Notation an_order o := (forall l : list str, Permutation (o l) l).
Variable table : list rule.
(** the rules that take part in forward translation *)
Notation rules := (filter (is_direction Forward) table).
Hypothesis CB : case_blind rules.
Variable order1 order2 : list str -> list str.
Hypothesis O1 : an_order order1.
Hypothesis O2 : an_order order2.
Variable t : list transformation.
Hypothesis E : compile order1 order2 table Forward = TOk t.
Variable x : context.
Hypothesis EX : context_compile is_alphabetic compat rules = TOk x.

Lemma main_pass_first : exists m post, t = TPrimary m :: post /\ main_built is_alphabetic compat read_dictionary Forward x rules m.
Proof.
  destruct (compile_built is_alphabetic compat read_dictionary order1 order2 table Forward t O1 O2 E) as [F K].
  assert (KM : exists l, map kind t = MainPass :: l).
  { rewrite K. clear K. assert (N : present table Forward CorrectPass = false).
    { assert (X : existsb (opcode_of CorrectPass) rules = false); [|exact X].
      destruct (existsb _ _) eqn:Ex; [|reflexivity]. apply existsb_exists in Ex. destruct Ex as (r & Hr & O).
      apply (cb_rules _ CB) in Hr. destruct r; discriminate. }
    cbn [pass_order filter]. rewrite N. cbn [present]. eexists. reflexivity. }
  destruct KM as (l & KM). destruct t as [|s t']; [discriminate KM|]. inversion F as [|s0 l0 Bs _]. subst.
  destruct s as [st ps|m|st ps]; try discriminate KM; [|destruct st; discriminate KM]. destruct Bs as (x' & EX' & Bm). rewrite EX in EX'. injection EX' as <-. exists m, t'. auto.
Qed.

(** Two texts that differ only in case, with the same emphasis: but for the signs, the main pass
    makes of them pieces of the same lengths with the same cells. *)
Theorem C75_text_pieces : forall u v o p q pu pv, but_for_case lower compat x rules u v ->
  trace t u o = Ok (p :: pu) -> trace t v o = Ok (q :: pv) -> Forall2 same_cells (text_pieces p) (text_pieces q).
Proof.
  intros u v o p q pu pv F Eu Ev. destruct main_pass_first as (m & post & -> & B). cbn [pipeline_trace_with transformation_trace] in Eu, Ev.
  destruct (main_trace lower upper sort m u (o_emphasis o)) as [a| |] eqn:Ea; try discriminate Eu. cbn [bind] in Eu.
  destruct (pipeline_trace_with lower upper sort post (outputs a) o); try discriminate Eu. cbn [bind] in Eu. injection Eu as <- <-.
  destruct (main_trace lower upper sort m v (o_emphasis o)) as [b| |] eqn:Eb; try discriminate Ev. cbn [bind] in Ev.
  destruct (pipeline_trace_with lower upper sort post (outputs b) o); try discriminate Ev. cbn [bind] in Ev. injection Ev as <- <-.
  exact (traces_even is_alphabetic compat read_dictionary x rules lower upper sort m B EX CB SORT u v (o_emphasis o) a b F Ea Eb).
Qed.
(** In a table without signs the translations are equal, whatever passes follow. *)
Theorem C75_no_signs : forall u v o a b, but_for_case lower compat x rules u v -> (forall r, In r rules -> sign_dots r = None) ->
  translate t u o = Ok a -> translate t v o = Ok b -> a = b.
Proof.
  intros u v o a b F NS Eu Ev. destruct main_pass_first as (m & post & -> & B). cbn [pipeline_translate_with transformation_translate_with] in Eu, Ev. unfold main_translate in Eu, Ev.
  destruct (main_trace lower upper sort m u (o_emphasis o)) as [p| |] eqn:Ea; try discriminate Eu. cbn [bind] in Eu.
  destruct (main_trace lower upper sort m v (o_emphasis o)) as [q| |] eqn:Eb; try discriminate Ev. cbn [bind] in Ev.
  assert (EO : outputs p = outputs q); [|rewrite EO in Eu; congruence].
  assert (NO : forall w l, main_trace lower upper sort m w (o_emphasis o) = Ok l -> text_pieces l = l)
    by (intros w l El; exact (all_text is_alphabetic compat read_dictionary x rules lower upper sort m B EX CB SORT w _ l NS El)).
  pose proof (traces_even is_alphabetic compat read_dictionary x rules lower upper sort m B EX CB SORT u v (o_emphasis o) p q F Ea Eb) as T.
  rewrite (NO _ _ Ea), (NO _ _ Eb) in T. unfold outputs. clear - T. induction T as [|y z p q [H _] T IH]; [reflexivity|]. cbn [flat_map]. rewrite H, IH. reflexivity.
Qed.
End Translator.
Print Assumptions C75_text_pieces.
Print Assumptions C75_no_signs.

(** ** Examples *)
Definition ex_case : list rule :=
  ex_letters ++ [RWord (lit "cd") (Explicit (b 30)) K []; always "ab" (b 15); RNumsign (b 60); RCapsletter (b 32) K; RBegcapsword (bs [32; 32]%N) K; RPostpunc (lit ".") (b 19) K].
Lemma ex_case_blind : case_blind (filter (is_direction Forward) ex_case).
Proof.
  change (filter (is_direction Forward) ex_case) with ex_case.
  assert (A : forall r, In r ex_case -> tells_case r = false /\ with_classes r = []).
  { intros r H. repeat (destruct H as [<-|H]; [split; reflexivity|]). destruct H. }
  constructor; [intros r H; apply A, H|]. intros r w H Hw. destruct (A r H) as [_ Z]. rewrite Z in Hw. destruct Hw.
Qed.
(** capitals and small letters of the table *)
Definition ex_pair (c c' : char) : Prop := In (c, c') [(65, 97); (66, 98); (67, 99); (68, 100)]%N.
Lemma ex_def n x r c : In (n, r, c) [(2, RLowercase 97%N (b 1) K, 97%N); (3, RLowercase 98%N (b 3) K, 98%N); (4, RLowercase 99%N (b 9) K, 99%N); (5, RLowercase 100%N (b 25) K, 100%N);
  (6, RUppercase 65%N (b 1) K, 65%N); (7, RUppercase 66%N (b 3) K, 66%N); (8, RUppercase 67%N (b 9) K, 67%N); (9, RUppercase 68%N (b 25) K, 68%N)] ->
  the_definition x ex_case true c r.
Proof.
  intros H. right. split.
  - intros s Hs HE. repeat (destruct Hs as [<-|Hs]; [destruct HE as [(g & X)|(g & k & X)]; discriminate X|]). destruct Hs.
  - exists (firstn n ex_case), (skipn (S n) ex_case).
    repeat (destruct H as [H|H]; [injection H as <- <- <-; split; [reflexivity|]; split; [reflexivity|]; intros s Hs; cbn [firstn ex_case ex_letters app] in Hs; cbn [In] in Hs;
      repeat (destruct Hs as [<-|Hs]; [intros L; discriminate L|]); destruct Hs|]). destruct H.
Qed.
Lemma ex_twins x c c' : ex_pair c c' -> twins ex_lower true x ex_case c c'.
Proof.
  intros P.
  assert (IC : forall k c, in_class true ex_case k c <-> In (c, k) (flat_map explicit_classes ex_case)).
  { intros k c0. rewrite in_flat_map. split; [|intros (r & H1 & H2); eapply ic_defined; eauto].
    intros H. inversion H as [r k' c1 I1 I2|r k' cs c1 I1 I2 I3|pre n c1 b' post s E0|pre n c1 b' post s E0]; subst.
    - eauto.
    - exfalso. repeat (destruct I1 as [<-|I1]; [discriminate I2|]). destruct I1.
    - exfalso. assert (I : In (RBase n c0 b') ex_case) by (rewrite E0; apply in_elt). repeat (destruct I as [I|I]; [discriminate I|]). destruct I.
    - exfalso. assert (I : In (RBase n c0 b') ex_case) by (rewrite E0; apply in_elt). repeat (destruct I as [I|I]; [discriminate I|]). destruct I. }
  repeat (destruct P as [P|P]; [injection P as <- <-; constructor; [reflexivity| | |]|]); try (destruct P; fail);
    try (intros k N1 N2; rewrite !IC; change (flat_map explicit_classes ex_case) with (ltac:(let v := eval vm_compute in (flat_map explicit_classes ex_case) in exact v));
         split; intros H; cbn [In] in H; repeat (destruct H as [H|H]; [try discriminate H; injection H as H; try congruence; subst k; cbn [In]; tauto|]); destruct H);
    try (intros r H; repeat (destruct H as [<-|H]; [cbn; tauto|]); destruct H).
  - exists (RUppercase 65%N (b 1) K), (RLowercase 97%N (b 1) K), (b 1). split; [apply (ex_def 6)|split; [apply (ex_def 2)|split; reflexivity]]; cbn; tauto.
  - exists (RUppercase 66%N (b 3) K), (RLowercase 98%N (b 3) K), (b 3). split; [apply (ex_def 7)|split; [apply (ex_def 3)|split; reflexivity]]; cbn; tauto.
  - exists (RUppercase 67%N (b 9) K), (RLowercase 99%N (b 9) K), (b 9). split; [apply (ex_def 8)|split; [apply (ex_def 4)|split; reflexivity]]; cbn; tauto.
  - exists (RUppercase 68%N (b 25) K), (RLowercase 100%N (b 25) K), (b 25). split; [apply (ex_def 9)|split; [apply (ex_def 5)|split; reflexivity]]; cbn; tauto.
Qed.

Lemma twins_sym lower compat x table c c' : twins lower compat x table c c' -> twins lower compat x table c' c.
Proof.
  intros [H1 H2 H3 (r & r' & s & D & D' & W & W')]. constructor; [auto| | |exists r', r, s; auto].
  - intros k N1 N2. symmetry. apply H2; assumption.
  - intros q Hq. symmetry. apply H3, Hq.
Qed.
Example ex_but_for_case x : but_for_case ex_lower true x ex_case (lit "Ab CD.") (lit "aB cd.").
Proof.
  repeat (constructor; [first [left; reflexivity|right; apply ex_twins; cbn; tauto|right; apply twins_sym, ex_twins; cbn; tauto]|]); constructor.
Qed.
Example C75_example : forall t o p q pu pv, ex_pipeline Forward ex_case = TOk t ->
  pipeline_trace_with ex_lower ex_upper ex_sort t (lit "Ab CD.") o = Ok (p :: pu) -> pipeline_trace_with ex_lower ex_upper ex_sort t (lit "aB cd.") o = Ok (q :: pv) ->
  Forall2 same_cells (text_pieces p) (text_pieces q).
Proof.
  unfold ex_pipeline. intros t o p q pu pv.
  pose proof ex_case_blind as CB. pose proof ex_but_for_case as BC. revert CB BC. change (filter (is_direction Forward) ex_case) with ex_case at 1.
  assert (EQ : filter (is_direction Forward) ex_case = ex_case) by reflexivity. revert EQ. generalize ex_case. intros table EQ CB BC E Eu Ev.
  destruct (context_compile ex_alpha true (filter (is_direction Forward) table)) as [x| |] eqn:EX.
  - refine (C75_text_pieces ex_alpha ex_lower ex_upper ex_sort true ex_dictionary ex_rearranges table _ (fun l => l) (fun l => l) (fun l => Permutation_refl l) (fun l => Permutation_refl l) t E x EX (lit "Ab CD.") (lit "aB cd.") o p q pu pv _ Eu Ev).
    + rewrite EQ. exact CB.
    + rewrite EQ. apply BC.
  - exfalso. unfold pipeline_compile in E. destruct (context_compile ex_alpha true table) as [y| |]; try discriminate E. cbn [tbind] in E.
    destruct (multipass_step_of _ _ _ _ _ _); try discriminate E. cbn [tbind] in E. rewrite EX in E. discriminate E.
  - exfalso. unfold pipeline_compile in E. destruct (context_compile ex_alpha true table) as [y| |]; try discriminate E. cbn [tbind] in E.
    destruct (multipass_step_of _ _ _ _ _ _); try discriminate E. cbn [tbind] in E. rewrite EX in E. discriminate E.
Qed.
Example C75_example_values :
  ex_translate Forward ex_case (lit "Ab CD.") options_default = Some (Ok (bs [32; 15; 0; 32; 32; 30; 19]%N)) /\
  ex_translate Forward ex_case (lit "aB cd.") options_default = Some (Ok (bs [15; 0; 30; 19]%N)).
Proof. split; vm_compute; reflexivity. Qed.

(** Rules that tell case tell the texts apart: a rule that wants a capital before it, and a
    trigger for computer braille. *)
Definition differ_by_case (table : list rule) (u v : str) : Prop := exists a b,
  ex_translate Forward table u options_default = Some (Ok a) /\ ex_translate Forward table v options_default = Some (Ok b) /\ a <> b.
Theorem C75_classes_refuted : differ_by_case (ex_letters ++ [RAlways (lit "b") (Explicit (b 15)) K [WAfter (lit "uppercase")]]) (lit "Ab") (lit "ab").
Proof. do 2 eexists. split; [vm_compute; reflexivity|]. split; [vm_compute; reflexivity|]. discriminate. Qed.
Theorem C75_triggers_refuted : differ_by_case (ex_letters ++ [always "ab" (b 15); RCompbrl (lit "A") K]) (lit "Ab") (lit "ab").
Proof. do 2 eexists. split; [vm_compute; reflexivity|]. split; [vm_compute; reflexivity|]. discriminate. Qed.
Print Assumptions C75_classes_refuted.
Print Assumptions C75_triggers_refuted.
