From Verif Require Import Base BaseProofs RuleModel TranslationModel TableModel PatternModel HyphenationModel TrieModel
  LoopModel CompileModel ConstraintModel IndicatorModel PipelineModel MainPass PipelineSpec.

Lemma is_direction_meant d r : ~ (marked_nofor r /\ marked_noback r) -> is_direction d r = true <-> meant_for d r.
Proof.
  unfold is_direction, meant_for, marked_nofor, marked_noback. intros N. destruct (rule_constraints r) as [k|].
  - assert (N' : ~ (nofor k = true /\ noback k = true)) by (intros [H1 H2]; apply N; split; exists k; auto).
    assert (A : (exists k', Some k = Some k' /\ nofor k' = true) <-> nofor k = true) by (split; [intros (k' & [= <-] & H); exact H|eauto]).
    assert (B : (exists k', Some k = Some k' /\ noback k' = true) <-> noback k = true) by (split; [intros (k' & [= <-] & H); exact H|eauto]).
    destruct d; rewrite ?A, ?B; destruct (nofor k), (noback k); intuition congruence.
  - split; [|reflexivity]. intros _. destruct d; intros (k & [=] & _).
Qed.

Section Pipeline.
Variable is_alphabetic : char -> bool.
Variable compat : bool.
Variable read_dictionary : str -> tres hyph.
Variable order1 order2 : list str -> list str.
Variable table : list rule.
Variable d : direction.
Notation rules := (filter (is_direction d) table).
Notation pass_built := (pass_built is_alphabetic compat read_dictionary d table).
Definition present (k : pass) : bool :=
  match k with MainPass => true | _ => existsb (opcode_of k) rules end.

Lemma step_of which make st ctx s k : context_compile is_alphabetic compat table = TOk ctx ->
  (forall r, which r = opcode_of k r) -> k <> MainPass -> st = stage_of k -> (forall ps, kind (make st ps) = k) ->
  (make = TPre \/ make = TPost) ->
  multipass_step_of which make st d ctx rules = TOk s ->
  Forall pass_built s /\ map kind s = filter present [k].
Proof.
  intros EC W NM Es Km Mk. unfold multipass_step_of.
  assert (EF : filter which rules = filter (opcode_of k) rules) by (apply filter_ext, W). rewrite EF.
  assert (PK : present k = existsb (opcode_of k) rules) by (destruct k; auto; congruence).
  destruct (filter (opcode_of k) rules) as [|r0 l] eqn:El.
  - intros [= <-]. split; [constructor|]. cbn [map filter]. rewrite PK.
    destruct (existsb (opcode_of k) rules) eqn:Ex; [|reflexivity]. apply existsb_exists in Ex. destruct Ex as (r & Hr & O).
    assert (I : In r (filter (opcode_of k) rules)) by (apply filter_In; auto). rewrite El in I. destruct I.
  - rewrite <- El. destruct (multipass_compile (filter (opcode_of k) rules) d st ctx) as [ps| |] eqn:Ep; try discriminate. cbn [tbind]. intros [= <-].
    assert (Ex : existsb (opcode_of k) rules = true).
    { apply existsb_exists. exists r0. apply filter_In. rewrite El. left. reflexivity. }
    split; [|cbn [map filter]; rewrite PK, Ex, Km; reflexivity].
    constructor; [|constructor]. specialize (Km ps).
    assert (Q : exists x, context_compile is_alphabetic compat table = TOk x /\ st = stage_of (kind (make st ps)) /\
      multipass_compile (filter (opcode_of (kind (make st ps))) rules) d st x = TOk ps).
    { exists ctx. rewrite Km. auto. }
    destruct Mk as [->| ->]; exact Q.
Qed.
Lemma compile_built t : permuting order1 -> permuting order2 ->
  pipeline_compile is_alphabetic compat read_dictionary order1 order2 table d = TOk t ->
  Forall pass_built t /\ map kind t = filter present (pass_order d).
Proof.
  intros O1 O2. unfold pipeline_compile.
  destruct (context_compile is_alphabetic compat table) as [ctx| |] eqn:EC; try discriminate. cbn [tbind].
  destruct (multipass_step_of is_correct TPre Pre d ctx rules) as [s1| |] eqn:E1; try discriminate. cbn [tbind].
  destruct (context_compile is_alphabetic compat rules) as [x| |] eqn:EX; try discriminate. cbn [tbind].
  destruct (main_compile is_alphabetic compat read_dictionary order1 order2 d x rules) as [m| |] eqn:EM; try discriminate. cbn [tbind].
  destruct (multipass_step_of is_pass2 TPost Post1 d ctx rules) as [s2| |] eqn:E2; try discriminate. cbn [tbind].
  destruct (multipass_step_of is_pass3 TPost Post2 d ctx rules) as [s3| |] eqn:E3; try discriminate. cbn [tbind].
  destruct (multipass_step_of is_pass4 TPost Post3 d ctx rules) as [s4| |] eqn:E4; try discriminate. cbn [tbind].
  destruct (step_of is_correct TPre Pre _ _ CorrectPass EC (fun r => ltac:(destruct r; reflexivity)) ltac:(discriminate) eq_refl (fun ps => eq_refl) (or_introl eq_refl) E1) as [B1 K1].
  destruct (step_of is_pass2 TPost Post1 _ _ Pass2 EC (fun r => ltac:(destruct r; reflexivity)) ltac:(discriminate) eq_refl (fun ps => eq_refl) (or_intror eq_refl) E2) as [B2 K2].
  destruct (step_of is_pass3 TPost Post2 _ _ Pass3 EC (fun r => ltac:(destruct r; reflexivity)) ltac:(discriminate) eq_refl (fun ps => eq_refl) (or_intror eq_refl) E3) as [B3 K3].
  destruct (step_of is_pass4 TPost Post3 _ _ Pass4 EC (fun r => ltac:(destruct r; reflexivity)) ltac:(discriminate) eq_refl (fun ps => eq_refl) (or_intror eq_refl) E4) as [B4 K4].
  assert (BM : pass_built (TPrimary m)) by (exists x; split; [exact EX|]; eapply main_compile_built; [exact O1|exact O2|exact EM]).
  set (steps := s1 ++ [TPrimary m] ++ s2 ++ s3 ++ s4).
  assert (Bs : Forall pass_built steps).
  { unfold steps. repeat (apply Forall_app; split); auto. }
  assert (Ks : map kind steps = filter present (pass_order Forward)).
  { unfold steps. rewrite !map_app, K1, K2, K3, K4.
    cbn [map kind pass_order filter present app]. destruct (existsb (opcode_of CorrectPass) rules), (existsb (opcode_of Pass2) rules), (existsb (opcode_of Pass3) rules), (existsb (opcode_of Pass4) rules); reflexivity. }
  fold steps. clearbody steps. destruct d; intros [= <-].
  - auto.
  - split; [apply Forall_rev, Bs|]. rewrite map_rev, Ks. change (pass_order Backward) with (rev (pass_order Forward)).
    generalize (pass_order Forward). intros l. induction l as [|k l IH]; [reflexivity|]. cbn [filter rev].
    rewrite filter_app, <- IH. cbn [filter]. destruct (present k); cbn [rev]; [reflexivity|rewrite app_nil_r; reflexivity].
Qed.
End Pipeline.
