(** C65, C66: signs are added and change nothing else; some opcodes change nothing. *)
From Coq Require Import Permutation Strings.String.
From Coq Require Import List.
From Verif Require Import Base BaseProofs RuleModel TranslationModel TableModel RegexpModel PatternModel HyphenationModel TrieModel
  LoopModel CompileModel CompileSpec CompileProofs MainTable ConstraintModel ConstraintSpec ConstraintProofs IndicatorModel EmphSpec
  MainSpec TraceSpec MainPass PropMultipass PropMain PropMainExamples PipelineModel PipelineSpec PipelineProofs OrderSpec OrderProofs
  PropPipeline SignSpec SignProofs FrameSpec FrameProofs PropFrame AsideSpec AsideProofs.

Section Translator.
Variable is_alphabetic : char -> bool.
Variable lower upper : char -> list char.
Variable sort : list event -> res (list event).
Variable compat : bool.
Variable read_dictionary : str -> tres hyph.
Notation compile := (pipeline_compile is_alphabetic compat read_dictionary).
Notation built := (pass_built is_alphabetic compat read_dictionary).
Notation step_trace := (transformation_trace lower upper sort).
Notation trace_with := (pipeline_trace_with lower upper sort).
Notation translate_with := (pipeline_translate_with lower upper sort).
Notation an_order o := (forall l : list str, Permutation (o l) l).
(** the same positions of the text are marked as computer braille *)
Definition same_computer (o1 o2 : options) : Prop := forall q, in_comp_span (o_emphasis o1) q <-> in_comp_span (o_emphasis o2) q.

Definition alike (s s' : transformation) : Prop := forall text o o', step_trace s text o = step_trace s' text o'.
Lemma up_to_main before before' m m' after after' o o' : Forall2 alike before before' -> forall input tr tr',
  trace_with (before ++ TPrimary m :: after) input o = Ok tr -> trace_with (before' ++ TPrimary m' :: after') input o' = Ok tr' ->
  exists text pre out out' post post', translate_with before input o = Ok text /\ tr = pre ++ out :: post /\ tr' = pre ++ out' :: post' /\
    length pre = length before /\ main_trace lower upper sort m text (o_emphasis o) = Ok out /\ main_trace lower upper sort m' text (o_emphasis o') = Ok out'.
Proof.
  induction 1 as [|s s' before before' A F IH]; intros input tr tr' E E'; cbn [app pipeline_trace_with pipeline_translate_with] in *.
  - cbn [transformation_trace] in E, E'.
    destruct (main_trace lower upper sort m input (o_emphasis o)) as [out| |] eqn:E0; try discriminate. cbn [bind] in E.
    destruct (trace_with after (outputs out) o) as [l| |]; try discriminate. cbn [bind] in E. injection E as <-.
    destruct (main_trace lower upper sort m' input (o_emphasis o')) as [out'| |] eqn:E0'; try discriminate. cbn [bind] in E'.
    destruct (trace_with after' (outputs out') o') as [l'| |]; try discriminate. cbn [bind] in E'. injection E' as <-.
    exists input, [], out, out', l, l'. auto 10.
  - rewrite step_translate. rewrite <- (A input o o') in E'. destruct (step_trace s input o) as [r| |]; try discriminate. cbn [bind] in *.
    destruct (trace_with (before ++ TPrimary m :: after) (outputs r) o) as [l| |] eqn:E1; try discriminate. cbn [bind] in E. injection E as <-.
    destruct (trace_with (before' ++ TPrimary m' :: after') (outputs r) o') as [l'| |] eqn:E1'; try discriminate. cbn [bind] in E'. injection E' as <-.
    destruct (IH _ _ _ E1 E1') as (text & pre & out & out' & post & post' & X1 & -> & -> & X4 & X5). exists text, (r :: pre), out, out', post, post'.
    split; [exact X1|]. split; [reflexivity|]. split; [reflexivity|]. split; [cbn; congruence|exact X5].
Qed.
Lemma filter_nodup {A} (f : A -> bool) l : NoDup l -> NoDup (filter f l).
Proof.
  induction 1 as [|y l N ND IH]; cbn; [constructor|]. destruct (f y); [constructor; [|exact IH]|exact IH]. intros H. apply filter_In in H. apply N, H.
Qed.
Lemma main_once order1 order2 table d t before m after : an_order order1 -> an_order order2 -> compile order1 order2 table d = TOk t ->
  t = before ++ TPrimary m :: after -> Forall (fun s => kind s <> MainPass) before.
Proof.
  intros O1 O2 E Et. destruct (compile_built is_alphabetic compat read_dictionary order1 order2 table d t O1 O2 E) as [_ K].
  assert (ND : NoDup (map kind t)). { rewrite K. apply filter_nodup. destruct d; cbn; repeat constructor; cbn; intuition discriminate. }
  rewrite Et, map_app in ND. cbn [map kind] in ND. apply NoDup_remove_2 in ND. rewrite in_app_iff in ND. apply Forall_forall. intros s Hs E0.
  apply ND. left. rewrite <- E0. apply in_map, Hs.
Qed.
Lemma alike_refl before : Forall (fun s => kind s <> MainPass) before -> Forall2 alike before before.
Proof. induction 1 as [|s before N _ IH]; constructor; [|exact IH]. destruct s; [intros text o o'; reflexivity|destruct (N eq_refl)|intros text o o'; reflexivity]. Qed.

(** ** C65: marking a text *)
(** Whatever is marked, as long as the same positions are marked as computer braille: the
    passes up to the main pass give the same pieces, but for the signs among those of the
    main pass. *)
Theorem C65_emphasis_only_adds_signs : forall order1 order2 table d t before m after input o1 o2 tr1 tr2,
  an_order order1 -> an_order order2 -> compile order1 order2 table d = TOk t -> sort_rearranges sort ->
  t = before ++ TPrimary m :: after -> same_computer o1 o2 ->
  trace_with t input o1 = Ok tr1 -> trace_with t input o2 = Ok tr2 -> but_for_signs (length before) tr1 tr2.
Proof.
  intros order1 order2 table d t before m after input o1 o2 tr1 tr2 O1 O2 E SR Et SC T1 T2.
  pose proof (main_once order1 order2 table d t before m after O1 O2 E Et) as NM.
  destruct (compile_built is_alphabetic compat read_dictionary order1 order2 table d t O1 O2 E) as [F _].
  rewrite Et in T1, T2, F. apply Forall_app in F. destruct F as [_ F]. inversion F as [|s l B _]; subst. destruct B as (x & EX & B).
  destruct (up_to_main before before m m after after o1 o2 (alike_refl before NM) input tr1 tr2 T1 T2) as (text & pre & out & out' & post & post' & _ & -> & -> & L & M1 & M2).
  exists pre, out, out', post, post'. split; [reflexivity|]. split; [reflexivity|]. split; [exact L|].
  eapply main_marked; eauto.
Qed.
(** Spans of classes no rule of the table is about make no difference at all. *)
Theorem C65_other_classes_do_nothing : forall order1 order2 table d t input o keep,
  an_order order1 -> an_order order2 -> compile order1 order2 table d = TOk t ->
  (forall s, keep s = false -> sp_class s <> computer_braille /\ forall r, In r table -> ~ speaks_of r (sp_class s)) ->
  trace_with t input (with_emphasis o (filter keep (o_emphasis o))) = trace_with t input o /\
  translate_with t input (with_emphasis o (filter keep (o_emphasis o))) = translate_with t input o.
Proof.
  intros order1 order2 table d t input o keep O1 O2 E KC. destruct (compile_built is_alphabetic compat read_dictionary order1 order2 table d t O1 O2 E) as [F _].
  clear E. assert (A : forall s text, built d table s -> step_trace s text (with_emphasis o (filter keep (o_emphasis o))) = step_trace s text o).
  { intros [st ps|m|st ps] text B; try reflexivity. cbn [transformation_trace with_emphasis o_emphasis]. destruct B as (x & EX & B).
    eapply main_kept; [exact B|]. intros s Ks. destruct (KC s Ks) as [N1 N2]. split; [exact N1|]. intros r Hr EN. apply (N2 r); [apply filter_In in Hr; apply Hr|apply speaks_iff, EN]. }
  split; revert input; induction F as [|s t B F IH]; intros input; cbn [pipeline_trace_with pipeline_translate_with]; auto.
  - rewrite (A s input B). destruct (step_trace s input o); cbn [bind]; auto. rewrite IH. reflexivity.
  - rewrite !step_translate, (A s input B). destruct (step_trace s input o); cbn [bind]; auto.
Qed.

(** ** C65, C66: rules of a table *)
Section Rule.
Variable d : direction.
Variable a b : list rule.
Variable r : rule.
Notation without := (a ++ b).
Notation with_rule := (a ++ r :: b).
Lemma quiet_rule : ignored r = true \/ only_signs r = true -> forall k, opcode_of k r = false.
Proof. intros [H|H] k; destruct r; try discriminate H; destruct k; reflexivity. Qed.
Lemma context_aside l1 l2 : ignored r = true \/ only_signs r = true -> context_compile is_alphabetic compat (l1 ++ r :: l2) = context_compile is_alphabetic compat (l1 ++ l2).
Proof.
  intros N. unfold context_compile.
  assert (X1 : forall y, context_step1 is_alphabetic compat y r = y) by (intros y; destruct N as [N|N]; destruct r; try discriminate N; reflexivity).
  assert (X2 : forall y, context_step2 compat y r = TOk y) by (intros y; destruct N as [N|N]; destruct r; try discriminate N; reflexivity).
  rewrite !fold_left_app. cbn [fold_left]. rewrite X1. generalize (fold_left (context_step1 is_alphabetic compat) l2 (fold_left (context_step1 is_alphabetic compat) l1 context_empty)) as y.
  induction l1 as [|q l1 IH]; intros y; cbn [app context_fold2].
  - rewrite X2. reflexivity.
  - destruct (context_step2 compat y q); cbn [tbind]; auto.
Qed.
Lemma opcodes_aside : ignored r = true \/ only_signs r = true -> forall k, filter (opcode_of k) (filter (is_direction d) with_rule) = filter (opcode_of k) (filter (is_direction d) without).
Proof.
  intros N k. rewrite filter_with, !filter_app. f_equal. destruct (is_direction d r); [|reflexivity]. cbn [filter app]. rewrite (quiet_rule N). reflexivity.
Qed.
Lemma present_aside : ignored r = true \/ only_signs r = true -> forall k, present with_rule d k = present without d k.
Proof.
  intros N k. unfold present. destruct k; try reflexivity; rewrite filter_with, !filter_app, !existsb_app; f_equal; destruct (is_direction d r); try reflexivity;
    cbn [existsb]; rewrite (quiet_rule N); reflexivity.
Qed.
(** A table with a rule that only makes signs and one without it: the passes up to the main
    pass give the same pieces, but for the signs. *)
Theorem C65_sign_rules_only_add_signs : forall order1 order2 order1' order2' t1 t2 before m after input o1 o2 tr1 tr2,
  only_signs r = true -> d = Forward \/ read_backward r = false ->
  an_order order1 -> an_order order2 -> an_order order1' -> an_order order2' ->
  compile order1 order2 without d = TOk t1 -> compile order1' order2' with_rule d = TOk t2 -> sort_rearranges sort ->
  t1 = before ++ TPrimary m :: after -> same_computer o1 o2 ->
  (forall text, translate_with before input o1 = Ok text -> no_ties is_alphabetic lower compat d a b text) ->
  trace_with t1 input o1 = Ok tr1 -> trace_with t2 input o2 = Ok tr2 -> but_for_signs (length before) tr1 tr2.
Proof.
  intros order1 order2 order1' order2' t1 t2 before m after input o1 o2 tr1 tr2 SG DB O1 O2 P1 P2 E1 E2 SR Et SC NT T1 T2.
  assert (N : ignored r = true \/ only_signs r = true) by (right; exact SG).
  pose proof (main_once order1 order2 without d t1 before m after O1 O2 E1 Et) as NM.
  destruct (compile_built is_alphabetic compat read_dictionary order1 order2 without d t1 O1 O2 E1) as [F1 K1].
  destruct (compile_built is_alphabetic compat read_dictionary order1' order2' with_rule d t2 P1 P2 E2) as [F2 K2].
  assert (K : map kind t2 = map kind t1) by (rewrite K1, K2; apply filter_ext; intros k; apply present_aside, N).
  clear K1 K2 E1 E2. rewrite Et in F1, K, T1. rewrite map_app in K. cbn [map kind] in K.
  assert (Sp : exists before' s after', t2 = before' ++ s :: after' /\ map kind before' = map kind before /\ kind s = MainPass).
  { apply map_eq_app in K. destruct K as (l1 & l2 & -> & Ka & Kb). apply map_eq_cons in Kb. destruct Kb as (s & l3 & -> & Ks & _). exists l1, s, l3. auto. }
  destruct Sp as (before' & s & after' & -> & KB & KS). destruct s as [st ps|m'|st ps]; [discriminate| |destruct st; discriminate].
  apply Forall_app in F1, F2. destruct F1 as [F1 G1], F2 as [F2 G2]. inversion G1 as [|s1 l1 B1 _]; subst. inversion G2 as [|s2 l2 B2 _]; subst.
  assert (AL : Forall2 alike before before').
  { clear - F1 F2 KB NM N. revert before' F2 KB. induction before as [|s before IH]; intros [|s' before'] F2 KB; try discriminate; constructor.
    - inversion F1 as [|? ? B1 _]; subst. inversion F2 as [|? ? B2 _]; subst. inversion NM as [|? ? Nm _]; subst. injection KB as KS _.
      destruct s as [st ps|m|st ps]; [|destruct (Nm eq_refl)|]; destruct s' as [st' ps'|m'|st' ps']; try discriminate KS; try (destruct st; discriminate KS); try (destruct st'; discriminate KS);
        destruct B1 as (x & EX & S1 & C1), B2 as (y & EY & S2 & C2); rewrite (context_aside a b N), EX in EY; injection EY as <-; rewrite KS in C2, S2; rewrite (opcodes_aside N) in C2;
        rewrite <- S1 in S2; subst st'; rewrite C1 in C2; injection C2 as <-; intros text o o'; reflexivity.
    - inversion F1; inversion F2; inversion NM; injection KB as _ KB; subst. apply IH; auto. }
  destruct (up_to_main before before' m m' after after' o1 o2 AL input tr1 tr2 T1 T2) as (text & pre & out & out' & post & post' & TX & -> & -> & L & M1 & M2).
  exists pre, out, out', post, post'. split; [reflexivity|]. split; [reflexivity|]. split; [exact L|].
  destruct B1 as (x & EX & B1), B2 as (y & EY & B2). destruct (NT text TX x EX) as (U1 & U2 & U3).
  rewrite filter_with in EY, B2. rewrite filter_app in EX, B1, U1, U2, U3. destruct (is_direction d r); cbn [app] in EY, B2.
  - rewrite (context_aside _ _ N), EX in EY. injection EY as <-.
    eapply (main_aside is_alphabetic compat read_dictionary d x _ _ r (or_intror (conj SG DB)) lower upper sort SR m m' text (o_emphasis o1) (o_emphasis o2) out out' B1 B2 U1 U2 U3 SC M1 M2).
  - rewrite EX in EY. injection EY as <-. rewrite (main_same is_alphabetic compat read_dictionary d x _ lower upper sort SR m m' text (o_emphasis o1) B1 B2 U1 U2 U3) in M1.
    eapply main_marked; eauto.
Qed.
(** An unknown opcode changes nothing. *)
Theorem C66_ignored_opcodes : forall order1 order2, ignored r = true -> compile order1 order2 with_rule d = compile order1 order2 without d.
Proof.
  intros order1 order2 IG. assert (N : ignored r = true \/ only_signs r = true) by (left; exact IG). unfold pipeline_compile.
  rewrite (context_aside a b N).
  assert (MP : forall which make st y, (exists k, forall q, which q = opcode_of k q) ->
    multipass_step_of which make st d y (filter (is_direction d) with_rule) = multipass_step_of which make st d y (filter (is_direction d) without)).
  { intros which make st y (k & Ek). unfold multipass_step_of. rewrite (filter_ext _ _ Ek), (opcodes_aside N k), <- (filter_ext _ _ Ek). reflexivity. }
  destruct (context_compile is_alphabetic compat (a ++ b)) as [y| |]; cbn [tbind]; auto.
  rewrite !MP by (first [exists CorrectPass; intros []; reflexivity|exists Pass2; intros []; reflexivity|exists Pass3; intros []; reflexivity|exists Pass4; intros []; reflexivity]).
  destruct (multipass_step_of is_correct TPre Pre d y _) as [s1| |]; cbn [tbind]; auto.
  assert (EC : context_compile is_alphabetic compat (filter (is_direction d) with_rule) = context_compile is_alphabetic compat (filter (is_direction d) without)).
  { rewrite filter_with, filter_app. destruct (is_direction d r); cbn [app]; [|reflexivity]. apply (context_aside _ _ N). }
  rewrite EC. destruct (context_compile is_alphabetic compat (filter (is_direction d) without)) as [z| |]; cbn [tbind]; auto.
  assert (EM : main_compile is_alphabetic compat read_dictionary order1 order2 d z (filter (is_direction d) with_rule) = main_compile is_alphabetic compat read_dictionary order1 order2 d z (filter (is_direction d) without)).
  { rewrite filter_with, filter_app. destruct (is_direction d r); cbn [app]; [|reflexivity]. unfold main_compile.
    rewrite (compile_aside compat read_dictionary d z _ _ r (or_introl IG)), (constrainers_aside is_alphabetic read_dictionary d z _ _ r (or_introl IG)), (scanner_aside Forward z _ _ r (or_introl IG)),
      (indicators_aside compat Forward z _ _ r (or_introl IG) order1 order2 IG). reflexivity. }
  rewrite EM. reflexivity.
Qed.
End Rule.
End Translator.
Print Assumptions C65_emphasis_only_adds_signs.
Print Assumptions C65_other_classes_do_nothing.
Print Assumptions C65_sign_rules_only_add_signs.
Print Assumptions C66_ignored_opcodes.

(** ** Examples *)
Definition ex_marks : list rule :=
  ex_letters ++ [always "ab" (b 15); REmphclass (lit "italic"); RBegemph (lit "italic") (b 40) K; REndemph (lit "italic") (b 41) K; RNumsign (b 60)].
Definition ex_marked (spans : list span) : options := with_emphasis options_default spans.
Example C65_example :
  ex_translate Forward ex_marks (lit "abc 1") (ex_marked [mk_span (lit "italic") 2 3]) = Some (Ok (bs [15; 40; 9; 41; 0; 60; 1]%N)) /\
  ex_translate Forward ex_marks (lit "abc 1") options_default = Some (Ok (bs [15; 9; 0; 60; 1]%N)).
Proof. split; [vm_compute; reflexivity|]. vm_compute. reflexivity. Qed.
Example C65_example_theorem : forall t m after tr1 tr2,
  ex_pipeline Forward ex_marks = TOk t -> t = TPrimary m :: after ->
  pipeline_trace_with ex_lower ex_upper ex_sort t (lit "abc 1") (ex_marked [mk_span (lit "italic") 2 3]) = Ok tr1 ->
  pipeline_trace_with ex_lower ex_upper ex_sort t (lit "abc 1") options_default = Ok tr2 ->
  but_for_signs 0 tr1 tr2.
Proof.
  unfold ex_pipeline. generalize ex_marks. intros table t m after tr1 tr2 E Et.
  apply (C65_emphasis_only_adds_signs ex_alpha ex_lower ex_upper ex_sort true ex_dictionary (fun l => l) (fun l => l) table Forward t [] m after
    (lit "abc 1") _ _ tr1 tr2 (fun l => Permutation_refl l) (fun l => Permutation_refl l) E ex_rearranges Et).
  intros q. unfold in_comp_span. cbn. split; [intros (s & [<-|[]] & C & _); discriminate C|intros (s & [] & _)].
Qed.
(** the rules of the numbers: without numsign there is no sign *)
Example C65_example_rules :
  only_signs (RNumsign (b 60)) = true /\
  ex_translate Forward (ex_letters ++ [always "ab" (b 15)]) (lit "ab1") options_default = Some (Ok (bs [15; 1]%N)) /\
  ex_translate Forward (ex_letters ++ [always "ab" (b 15); RNumsign (b 60)]) (lit "ab1") options_default = Some (Ok (bs [15; 60; 1]%N)).
Proof. split; [reflexivity|]. split; [vm_compute; reflexivity|]. vm_compute. reflexivity. Qed.
(** Text marked as computer braille is translated differently, *)
Theorem C65_computer_braille_refuted : exists table input spans out1 out2,
  (forall r, In r table -> indicator_opcode r = false) /\
  ex_translate Forward table input (ex_marked spans) = Some (Ok out1) /\ ex_translate Forward table input options_default = Some (Ok out2) /\ out1 <> out2.
Proof.
  exists (ex_letters ++ [always "ab" (b 15)]), (lit "ab"), [mk_span computer_braille 0 2]. do 2 eexists. split.
  - intros r H. repeat (destruct H as [<-|H]; [reflexivity|]). destruct H.
  - split; [vm_compute; reflexivity|]. split; [vm_compute; reflexivity|]. discriminate.
Qed.
(** backward the number sign makes digits of letters, *)
Theorem C65_numsign_backward_refuted : exists table input out1 out2,
  ex_translate Backward table input options_default = Some (Ok out1) /\ ex_translate Backward (table ++ [RNumsign (b 60)]) input options_default = Some (Ok out2) /\
  ~ In 49%N out1 /\ In 49%N out2.
Proof.
  exists ex_letters, (bs [60; 1]%N). do 2 eexists. split; [vm_compute; reflexivity|]. split; [vm_compute; reflexivity|]. cbn. split; [intuition discriminate|auto].
Qed.
(** and passes behind the main pass see the signs. *)
Theorem C65_later_passes_refuted : exists table spans input out1 out2,
  ex_translate Forward table input (ex_marked spans) = Some (Ok out1) /\ ex_translate Forward table input options_default = Some (Ok out2) /\
  In 10303%N out1 /\ ~ In 10303%N out2 /\ forall r, In r table -> sign_dots r <> Some [10303%N].
Proof.
  exists (ex_marks ++ [RPass2 [TDots (bs [40; 9]%N)] [ActDots [10303%N]] K]), [mk_span (lit "italic") 2 3], (lit "abc"). do 2 eexists.
  split; [vm_compute; reflexivity|]. split; [vm_compute; reflexivity|]. cbn [In]. split; [auto 10|]. split; [intuition discriminate|].
  intros r H. repeat (destruct H as [<-|H]; [discriminate|]). destruct H.
Qed.
Print Assumptions C65_computer_braille_refuted.
Print Assumptions C65_numsign_backward_refuted.
Print Assumptions C65_later_passes_refuted.
(** C66: replace is one of them *)
Example C66_example :
  ignored (RReplace (lit "ab") (Some (lit "c"))) = true /\
  ex_translate Forward (ex_marks ++ [RReplace (lit "ab") (Some (lit "c"))]) (lit "abc") options_default = Some (Ok (bs [15; 9]%N)) /\
  ex_translate Forward ex_marks (lit "abc") options_default = Some (Ok (bs [15; 9]%N)).
Proof. split; [reflexivity|]. split; [vm_compute; reflexivity|]. vm_compute. reflexivity. Qed.
