(** What a test finds does not depend on the values of the variables, as long as it finds
    something: the tests of variables only let a rule through or not. *)
From Coq Require Import List.
From Verif Require Import Base BaseProofs RegexpModel RegexpSpec RegexpCorrect RuleModel TranslationModel TableModel PatternModel OperandModel OperandProofs.

(** ** The virtual machine *)
(** the instruction has the same result for the variables [e] and [e'] *)
Definition var_ok (e : N -> option N) (v x : N) : bool := match e v with Some y => N.eqb y x | None => false end.
Definition var_not (e : N -> option N) (v x : N) : bool := match e v with Some y => negb (N.eqb y x) | None => false end.
Definition same_instr (e e' : N -> option N) (i : instr) : Prop :=
  match i with
  | IVarEq v x => var_ok e v x = var_ok e' v x
  | INotVarEq v x => var_not e v x = var_not e' v x
  | _ => True
  end.
Section VM.
Variable lower : char -> list char.
Variable e e' : N -> option N.
Variable at_start : bool.
Variable prog : list instr.
Variable classes : list (list char).
Hypothesis SI : forall i, In i prog -> same_instr e e' i.
Lemma add_same fuel : forall tl pc cap sp ilen,
  add_thread e at_start prog fuel tl pc cap sp ilen = add_thread e' at_start prog fuel tl pc cap sp ilen.
Proof.
  induction fuel as [|f IH]; intros tl pc cap sp ilen; cbn [add_thread]; [reflexivity|].
  destruct (seenb pc (snd tl)); [reflexivity|]. destruct (nth_error prog pc) as [i|] eqn:E; [|reflexivity].
  apply nth_error_In in E. apply SI in E. destruct i; cbn [same_instr] in E; try reflexivity; try apply IH; rewrite ?IH; try reflexivity.
  - destruct (add_thread e' at_start prog f _ a cap sp ilen); cbn [bind]; [apply IH|reflexivity..].
  - unfold var_ok in E. destruct (e v) as [y|], (e' v) as [y'|]; try rewrite E; try rewrite <- E; try reflexivity.
  - unfold var_not in E. destruct (e v) as [y|], (e' v) as [y'|]; try rewrite E; try rewrite <- E; try reflexivity.
Qed.
Lemma step_same ts : forall next_char sp ilen len next m,
  step_threads lower e at_start prog classes ts next_char sp ilen len next m =
  step_threads lower e' at_start prog classes ts next_char sp ilen len next m.
Proof.
  induction ts as [|[pc cap] ts IH]; intros next_char sp ilen len next m; cbn [step_threads]; [reflexivity|].
  destruct (nth_error prog pc) as [i|]; [|reflexivity].
  destruct i; cbn iota; try reflexivity;
    (destruct (accepts lower classes _ next_char) as [[|]|]; [destruct next_char as [nc|]; [|reflexivity]|apply IH|reflexivity];
     rewrite add_same; destruct (add_thread e' at_start prog (at_fuel prog) next (pc + 1) cap (sp + len_utf8 nc) ilen); cbn [bind]; [apply IH|reflexivity..]).
Qed.
Lemma loop_same fuel : forall input sp len current m,
  vm_loop lower e at_start prog classes fuel input sp len current m = vm_loop lower e' at_start prog classes fuel input sp len current m.
Proof.
  induction fuel as [|f IH]; intros input sp len current m; cbn [vm_loop]; [reflexivity|].
  destruct current as [|t current]; [reflexivity|]. destruct (slice_from input sp) as [rest|]; [|reflexivity].
  rewrite step_same. destruct (step_threads lower e' at_start prog classes (t :: current) (hd_error rest) sp (blen input) len ([], []) m) as [[next m']| |]; cbn [bind]; try reflexivity.
  destruct (hd_error rest); [apply IH|reflexivity].
Qed.
Lemma anchored_same input : find_anchored lower e at_start prog classes input = find_anchored lower e' at_start prog classes input.
Proof.
  unfold find_anchored. rewrite add_same. destruct (add_thread e' at_start prog (at_fuel prog) ([], []) 0 (0, 0) 0 (blen input)); cbn [bind]; [|reflexivity..].
  rewrite loop_same. reflexivity.
Qed.
End VM.

(** ** The variables a pattern tests *)
Fixpoint vars (r : regexp) : list instr :=
  match r with
  | RVarEq v x => [IVarEq v x]
  | RNotVarEq v x => [INotVarEq v x]
  | RConcat a b | REither a b => vars a ++ vars b
  | ROptional a | RZeroOrMore a | ROneOrMore a | RRepeatExactly _ a | RRepeatAtLeast _ a | RRepeatAtLeastAtMost _ _ a
  | RCapture a | RGroup a => vars a
  | _ => []
  end.
Definition no_var (i : instr) : Prop := match i with IVarEq _ _ | INotVarEq _ _ => False | _ => True end.
Lemma upd_In {A} k (y : A) l i : In i (upd k y l) -> i = y \/ In i l.
Proof.
  revert k. induction l as [|z l IH]; intros [|k]; cbn [upd]; try (intros []; fail); cbn [In]; intuition.
  destruct (IH _ H0); auto.
Qed.
Definition only (V : list instr) (f : code -> code) : Prop := forall s i, In i (fst (f s)) -> In i (fst s) \/ no_var i \/ In i V.
Lemma repeat_only V f n : only V f -> only V (repeat_emit n f).
Proof. intros F. induction n as [|n IH]; intros s i I; cbn [repeat_emit] in I; [auto|]. destruct (IH _ _ I) as [H|H]; [|auto]. apply F, H. Qed.
Lemma push_In y s i : In i (fst (push y s)) -> i = y \/ In i (fst s).
Proof. unfold push. cbn [fst]. rewrite in_app_iff. cbn [In]. intuition. Qed.
Lemma emit_only r : only (vars r) (emit r).
Proof.
  induction r; intros s0 i I; cbn [emit vars] in *; cbv zeta in I;
    repeat first
      [ exact (or_introl I)
      | match type of I with
        | In _ (fst (push ?y _)) => apply push_In in I; destruct I as [I|I]; [subst i; cbn [no_var]; auto; right; right; left; reflexivity|]
        | In _ (fst (patch ?k ?y _)) => unfold patch in I; cbn [fst] in I; apply upd_In in I; destruct I as [I|I]; [subst i; cbn [no_var]; auto|]
        | In _ (fst (repeat_emit ?n (emit ?r) _)) => first [apply (repeat_only _ _ n IHr) in I]; destruct I as [I|I]; [|auto; fail]
        | In _ (fst (emit ?r _)) => first [apply IHr in I | apply IHr2 in I | apply IHr1 in I]; destruct I as [I|I]; [|try rewrite in_app_iff; tauto]
        | In _ (upd _ _ _) => apply upd_In in I; destruct I as [I|I]; [subst i; cbn [no_var]; auto|]
        | In _ (fst (_ ++ map _ _, _)) => cbn [fst] in I; rewrite in_app_iff, in_map_iff in I; destruct I as [I|(y & <- & _)]; cbn [no_var]; auto
        | _ => cbn [fst] in I
        end ].
Qed.
Lemma find_same lower e e' at_start r input : (forall i, In i (vars r) -> same_instr e e' i) ->
  regexp_find lower r e at_start input = regexp_find lower r e' at_start input.
Proof.
  intros H. unfold regexp_find. apply anchored_same. intros i I. unfold compile in I. apply push_In in I. destruct I as [->|I]; [exact Coq.Init.Logic.I|].
  apply emit_only in I. destruct I as [[]|[I|I]]; [|apply H, I]. destruct i; cbn in *; auto; destruct I.
Qed.

(** ** Gates *)
(** variables are tested only where a match has to pass *)
Fixpoint gated (r : regexp) : Prop :=
  match r with
  | RConcat a b => gated a /\ gated b
  | RCapture a | RGroup a => gated a
  | RVarEq _ _ | RNotVarEq _ _ => True
  | _ => vars r = []
  end.
Definition passes (e : N -> option N) (i : instr) : Prop :=
  match i with IVarEq v x => var_ok e v x = true | INotVarEq v x => var_not e v x = true | _ => True end.
Lemma unvar_gated r : vars r = [] -> gated r.
Proof.
  induction r; cbn [vars gated]; auto; intros H; try exact Coq.Init.Logic.I.
  apply app_eq_nil in H. destruct H as [H1 H2]. auto.
Qed.
Lemma gates_hold lower e at_start input r i c j c' : Mat lower e at_start input r i c j c' -> gated r -> forall y, In y (vars r) -> passes e y.
Proof.
  induction 1; cbn [gated vars]; intros G y I; try (destruct I; fail); try (rewrite G in I; destruct I; fail).
  - rewrite in_app_iff in I. destruct G as [G1 G2], I as [I|I]; auto.
  - auto.
  - auto.
  - destruct I as [<-|[]]. unfold atom_var_eq in H. cbn [passes]. unfold var_ok. rewrite H. apply N.eqb_refl.
  - destruct I as [<-|[]]. destruct H as (z & H & N). cbn [passes]. unfold var_not. rewrite H. apply negb_true_iff, N.eqb_neq. exact N.
Qed.
Lemma compiled_unvar r : vars r = [] -> vars (as_compiled r) = [].
Proof.
  induction r; cbn [vars as_compiled]; auto; intros H.
  - apply app_eq_nil in H. destruct H as [H1 H2]. rewrite IHr1, IHr2; auto.
  - apply app_eq_nil in H. destruct H as [H1 H2]. rewrite IHr1, IHr2; auto.
  - rewrite IHr; auto.
Qed.
Lemma compiled_gated r : gated r -> gated (as_compiled r).
Proof.
  induction r; cbn [gated]; try (intros H; exact H); try (intros H; cbn [as_compiled gated]; auto; fail).
  - intros [H1 H2]. cbn [as_compiled gated]. auto.
  - intros H. apply unvar_gated, compiled_unvar, H.
  - intros H. apply unvar_gated, compiled_unvar, H.
  - intros H. apply unvar_gated, compiled_unvar, H.
  - intros H. apply unvar_gated, compiled_unvar, H.
  - intros H. apply unvar_gated, compiled_unvar, H.
  - intros H. apply unvar_gated, compiled_unvar, H.
  - intros H. apply unvar_gated, compiled_unvar, H.
Qed.
(** whatever the variables are, the same thing is found *)
Lemma gated_find lower e e' at_start r input f f' : gated r ->
  regexp_find lower r e at_start input = Ok (Some f) -> regexp_find lower r e' at_start input = Ok (Some f') -> f = f'.
Proof.
  intros G E E'. rewrite regexp_find_as_compiled in E, E'.
  assert (P : forall e0 f0, regexp_find lower (as_compiled r) e0 at_start input = Ok (Some f0) -> forall y, In y (vars (as_compiled r)) -> passes e0 y).
  { intros e0 f0 E0. rewrite <- regexp_find_as_compiled in E0. destruct (find_spec lower e0 at_start r input) as (o & Eo & H). rewrite E0 in Eo. injection Eo as <-.
    destruct H as (j & s & en & M & _). eapply gates_hold; [exact M|apply compiled_gated, G]. }
  rewrite (find_same lower e e') in E; [congruence|].
  intros y I. pose proof (P _ _ E y I) as P1. pose proof (P _ _ E' y I) as P2. destruct y; cbn in *; auto; congruence.
Qed.

(** ** Tests *)
Lemma negate_unvar r : forall r', negate r = Some r' -> vars r = [] -> vars r' = [].
Proof.
  induction r; cbn [negate vars]; intros r' E H; try discriminate; try (injection E as <-; reflexivity);
    try (destruct (negate r) as [a|] eqn:EA; cbn [option_map] in E; [|discriminate E]; injection E as <-; cbn [vars]; eauto; fail);
    (destruct (negate r1) as [a|] eqn:E1; [|discriminate E]; destruct (negate r2) as [b|] eqn:E2; [|discriminate E]; injection E as <-;
     apply app_eq_nil in H; destruct H as [H1 H2]; cbn [vars]; rewrite (IHr1 _ eq_refl H1), (IHr2 _ eq_refl H2); reflexivity).
Qed.
Lemma negate_gated r : forall r', negate r = Some r' -> gated r -> gated r'.
Proof.
  induction r; intros r' E G; try (apply unvar_gated, (negate_unvar _ _ E), G; fail); cbn [negate] in E; try discriminate E.
  - destruct (negate r1) as [a|] eqn:E1; [|discriminate E]. destruct (negate r2) as [b|] eqn:E2; [|discriminate E]. injection E as <-. destruct G. cbn [gated]. auto.
  - injection E as <-. exact Coq.Init.Logic.I.
  - destruct (negate r) as [a|] eqn:EA; cbn [option_map] in E; [|discriminate E]. injection E as <-. cbn [gated] in *. auto.
Qed.
Lemma quantified_gated q cs : gated (quantified q (RegexpModel.RClass cs)).
Proof. destruct q as [[n|m n|]|]; reflexivity. Qed.
Lemma concat_gated rs : forall acc, gated acc -> Forall gated rs -> gated (concat_left acc rs).
Proof. induction rs as [|r rs IH]; intros acc A F; cbn [concat_left]; [exact A|]. inversion F; subst. apply IH; [split; assumption|assumption]. Qed.
Lemma instr_gated ctx t : forall r, re_of_instr ctx t = Some r -> gated r.
Proof.
  induction t as [n|v o x|s|s|a q|n q|t IH|ts IH| |] using test_ind'; intros r E; cbn [re_of_instr] in E;
    try (injection E as <-; try reflexivity; try exact Coq.Init.Logic.I; apply quantified_gated; fail).
  - destruct o; try discriminate E. injection E as <-. exact Coq.Init.Logic.I.
  - destruct (re_of_instr ctx t) as [a|]; [|discriminate E]. eapply negate_gated; [exact E|apply IH; reflexivity].
  - assert (X : forall l, (fix all (l : list test_instr) : option (list regexp) :=
       match l with [] => Some [] | x :: r => match re_of_instr ctx x, all r with Some a, Some b => Some (a :: b) | _, _ => None end end) ts = Some l -> Forall gated l).
    { clear E. induction IH as [|t ts H IH IHts]; intros l E; [injection E as <-; constructor|].
      destruct (re_of_instr ctx t) as [a|]; [|discriminate E].
      match type of E with match ?x with _ => _ end = _ => destruct x as [b|] eqn:EB; [|discriminate E] end.
      injection E as <-. constructor; [apply H; reflexivity|apply IHts; reflexivity]. }
    match type of E with match ?x with _ => _ end = _ => destruct x as [[|b bs]|] eqn:EB; [| |discriminate E] end; injection E as <-; cbn [gated].
    + reflexivity.
    + specialize (X _ eq_refl). inversion X; subst. apply concat_gated; assumption.
Qed.
Lemma tests_gated ctx ts r : re_of_instrs ctx ts = Some r -> gated r.
Proof.
  unfold re_of_instrs.
  assert (X : forall l, re_of_all ctx ts = Some l -> Forall gated l).
  { induction ts as [|t ts IH]; cbn [re_of_all]; intros l E; [injection E as <-; constructor|].
    destruct (re_of_instr ctx t) as [a|] eqn:EA; [|discriminate E]. destruct (re_of_all ctx ts) as [b|]; [|discriminate E]. injection E as <-.
    constructor; [eapply instr_gated, EA|apply IH; reflexivity]. }
  destruct (re_of_all ctx ts) as [[|b bs]|]; intros E; try discriminate E; injection E as <-; [reflexivity|].
  specialize (X _ eq_refl). inversion X; subst. apply concat_gated; assumption.
Qed.
Lemma insert_gated x test action o st p : context_insert x test action o st = TOk p -> gated (cp_re p).
Proof.
  unfold context_insert. destruct (targets_of (x_swaps x) action) as [ts| |]; cbn [tbind]; try discriminate.
  destruct (re_of_instrs (stage_classes x st) (add_implicit_replace test)) as [r|] eqn:E; try discriminate. intros [= <-]. cbn [cp_re]. eapply tests_gated, E.
Qed.
(** A rule offers the same thing, whatever the values of the variables with which it does. *)
Lemma offer_same lower p e e' at_start rest u u' : gated (cp_re p) ->
  cpat_find lower p e at_start rest = Ok (Some u) -> cpat_find lower p e' at_start rest = Ok (Some u') -> u = u'.
Proof.
  intros G. unfold cpat_find. destruct (regexp_find lower (cp_re p) (env_get e) at_start rest) as [[f|]| |] eqn:E; cbn [bind]; try discriminate.
  destruct (regexp_find lower (cp_re p) (env_get e') at_start rest) as [[f'|]| |] eqn:E'; cbn [bind]; try discriminate.
  rewrite (gated_find lower _ _ at_start _ rest f f' G E E'). destruct (translation_resolve (cp_payload p) (f_capture f') (f_length f') (f_offset f')); cbn [bind]; congruence.
Qed.
