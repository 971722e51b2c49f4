(** C24 (what a context, correct or pass rule replaces), C47 (look-behind), C48 (the
    attribute for any character). *)
From Coq Require Import Strings.String.
From Coq Require Import List.
From Verif Require Import Base BaseProofs RuleModel TranslationModel TableModel TableProofs RegexpModel RegexpSpec
  RegexpCorrect PatternModel OperandModel OperandProofs TestSpec PatternProofs.

(** The table's swap classes, for each name and character ([HashMap]s: the last
    definition of a name, and within it the last mapping of a character). *)
Definition table_swap (x : context) (name : str) (c : char) : option str :=
  match swaps_get (x_swaps x) name with Some m => assoc c m | None => None end.
(** Attributes are those of characters in correct and context rules and those of cells (the
    dots of the characters, C43) in the rules of the later passes. *)
Definition attribute_at (x : context) (st : stage) : classes :=
  match st with Pre | Main => x_chars x | Post1 | Post2 | Post3 => x_dots x end.
(** A rule whose test is [before [mid] after]: its parts fit at [s], [e] and [j]. *)
Definition fits (x : context) (st : stage) (e : env) (at_start : bool) (text : str)
    (before mid after : list test_instr) (s f j : nat) : Prop :=
  let T := Tests (fun k c => In (k, c) (attribute_at x st)) (env_get e) at_start text in
  T before 0 s /\ T mid s f /\ T after f j.

(** For every accepted test [before [mid] after] and every action: looked up at a cursor,
    the rule is offered iff its three parts fit one after the other; what it replaces is
    the stretch of [mid] - its text, its offset from the cursor and its length - and the
    output is that of the actions on it.  Neither [before] nor [after] is consumed.  The
    part [before] may contain brackets: the last pair counts. *)
Theorem C24_replaces_bracketed_span : forall lower x test test_operand action o st p e at_start text before mid after,
  parse_tests test_operand = Good test [] -> test = before ++ TReplace mid :: after ->
  forallb bracket_free mid = true -> forallb bracket_free after = true ->
  context_insert x test action o st = TOk p ->
  exists r, cpat_find lower p e at_start text = Ok r /\
    match r with
    | None => forall s f j, ~ fits x st e at_start text before mid after s f j
    | Some t => exists s f j, fits x st e at_start text before mid after s f j /\
        s <= f /\ f <= j /\ j <= length text /\
        r_input t = firstn (f - s) (skipn s text) /\ r_offset t = s /\ r_length t = f - s /\
        r_weight t = j /\
        r_output t = flat_map (action_output (table_swap x) (firstn (f - s) (skipn s text))) action /\
        r_stage t = st /\ r_origin t = Some o /\ r_effects t = effects_of action
    end.
Proof.
  intros lower x test test_operand action o st p e at_start text before mid after P Et Fm Fa C.
  unfold context_insert in C. destruct (targets_of (x_swaps x) action) as [ts| |] eqn:Ets; try discriminate. cbn [tbind] in C.
  assert (AI : add_implicit_replace test = test).
  { unfold add_implicit_replace. rewrite Et, existsb_app. simpl. rewrite orb_true_r. reflexivity. }
  rewrite AI in C. destruct (re_of_instrs (stage_classes x st) test) as [r|] eqn:Er; [|discriminate].
  injection C as <-. apply parse_tests_wf in P. subst test.
  destruct (bracket_found lower (stage_classes x st) (env_get e) at_start text before mid after r P Fm Fa Er)
    as (res & Ef & H).
  unfold cpat_find. cbn [cp_re cp_payload]. rewrite Ef. destruct res as [f|]; cbn [bind].
  - destruct H as (s & fi & j & T1 & T2 & T3 & H1 & H2 & H3 & ->).
    unfold report. cbn [f_capture f_length f_offset translation_resolve unresolved_resolve u_output u_prec u_stage u_effects u_origin].
    unfold unresolved_resolve. cbn [u_output u_prec u_stage u_effects u_origin].
    rewrite (targets_output _ _ _ _ Ets). cbn [bind].
    eexists. split; [reflexivity|]. exists s, fi, j. split; [split; [exact T1|split; [exact T2|exact T3]]|].
    cbn [r_input r_output r_length r_weight r_offset r_stage r_origin r_effects].
    repeat split; auto. rewrite firstn_length, skipn_length. unfold char in *. lia.
  - eexists. split; [reflexivity|]. intros s fi j (T1 & T2 & T3). apply (H s fi j). auto.
Qed.
Print Assumptions C24_replaces_bracketed_span.

(** Without brackets everything matched is replaced. *)
Theorem C24_without_brackets_replaces_all : forall lower x test test_operand action o st p e at_start text,
  parse_tests test_operand = Good test [] -> forallb bracket_free test = true ->
  context_insert x test action o st = TOk p ->
  exists r, cpat_find lower p e at_start text = Ok r /\
    match r with
    | None => forall s j, ~ fits x st e at_start text [] test [] s s j /\ ~ fits x st e at_start text [] test [] 0 j j
    | Some t => exists j, fits x st e at_start text [] test [] 0 j j /\ j <= length text /\
        r_input t = firstn j text /\ r_offset t = 0 /\ r_length t = j /\
        r_output t = flat_map (action_output (table_swap x) (firstn j text)) action
    end.
Proof.
  intros lower x test test_operand action o st p e at_start text P Fm C.
  unfold context_insert in C. destruct (targets_of (x_swaps x) action) as [ts| |] eqn:Ets; try discriminate. cbn [tbind] in C.
  assert (NR : existsb is_replace test = false).
  { destruct (existsb is_replace test) eqn:E; [|reflexivity]. apply existsb_exists in E.
    destruct E as (t & Ht & R). rewrite forallb_forall in Fm. specialize (Fm t Ht). destruct t; discriminate. }
  assert (AI : add_implicit_replace test = [] ++ TReplace test :: []).
  { unfold add_implicit_replace. rewrite NR. reflexivity. }
  rewrite AI in C. destruct (re_of_instrs (stage_classes x st) _) as [r|] eqn:Er; [|discriminate].
  injection C as <-. apply parse_tests_wf in P.
  assert (P' : forallb wf_test ([] ++ TReplace test :: []) = true) by (simpl; rewrite P; reflexivity).
  destruct (bracket_found lower (stage_classes x st) (env_get e) at_start text [] test [] r P' Fm eq_refl Er)
    as (res & Ef & H).
  unfold cpat_find. cbn [cp_re cp_payload]. rewrite Ef. destruct res as [f|]; cbn [bind].
  - destruct H as (s & fi & j & T1 & T2 & T3 & H1 & H2 & H3 & ->).
    inversion T1; subst. inversion T3; subst.
    unfold report. cbn [f_capture f_length f_offset translation_resolve]. unfold unresolved_resolve.
    cbn [u_output u_prec u_stage u_effects u_origin skipn]. rewrite Nat.sub_0_r.
    rewrite (targets_output _ _ _ _ Ets). cbn [bind].
    eexists. split; [reflexivity|]. exists j. split; [split; [constructor|split; [exact T2|constructor]]|].
    cbn [r_input r_output r_length r_weight r_offset r_stage r_origin r_effects].
    repeat split; auto. rewrite firstn_length. unfold char in *. lia.
  - eexists. split; [reflexivity|]. intros s j. split; intros (T1 & T2 & T3).
    + apply (H s s j). auto.
    + apply (H 0 j j). auto.
Qed.
Print Assumptions C24_without_brackets_replaces_all.

(** Compilation of an accepted rule fails only if a swap class is not defined (or by the
    panic of C23). *)
Theorem C24_unknown_swap_class_is_an_error : forall x test action o st name,
  context_insert x test action o st = TErr (SwapClassNotDefined name) ->
  In (ActSwapClass name) action /\ swaps_get (x_swaps x) name = None.
Proof.
  intros x test action o st name H. unfold context_insert in H.
  destruct (targets_of (x_swaps x) action) as [ts|er|] eqn:E; cbn [tbind] in H; try discriminate.
  - destruct (re_of_instrs _ _); discriminate.
  - injection H as ->. revert E. induction action as [|a action IH]; simpl; [discriminate|].
    destruct (target_of (x_swaps x) a) as [t|er|] eqn:Ea; cbn [tbind].
    + destruct (targets_of (x_swaps x) action) as [ts|er|]; cbn [tbind]; try discriminate.
      intros H. destruct (IH H). auto.
    + intros [= ->]. destruct a; simpl in Ea; try discriminate.
      destruct (swaps_get (x_swaps x) name0) eqn:Es; [discriminate|]. injection Ea as ->. auto.
    + discriminate.
Qed.
Print Assumptions C24_unknown_swap_class_is_an_error.

(** With a bracket inside the bracket the claim fails: on "xa", [pass2 ["x"["a"]] "r"]
    replaces only the "a" and leaves the "x", which is part of the outer bracket. *)
Definition ex_x : context := mk_context [] [] [] [(lit "sw", swapper_new [(97%N, lit "AA"); (98%N, [])])].
Definition ex_rule : rule := RAlways (lit "x") Implicit no_constraints [].
Definition ex_find (test action : String.string) (text : String.string) : option (res (option (str * str * nat * nat))) :=
  match parse_tests (lit test), parse_actions (lit action) with
  | Good t _, Good a _ =>
      match context_insert ex_x t a ex_rule Pre with
      | TOk p => Some (do r <- cpat_find (fun c => [c]) p env_new true (lit text);
                       Ok (option_map (fun r => (r_input r, r_output r, r_offset r, r_length r)) r))
      | _ => None
      end
  | _, _ => None
  end.
Arguments ex_find test%string action%string text%string.
Theorem C24_nested_brackets_refuted :
  ex_find "[""x""[""a""]]" """r""" "xa" = Some (Ok (Some (lit "a", lit "r", 1, 1))).
Proof. vm_compute. reflexivity. Qed.
Print Assumptions C24_nested_brackets_refuted.

(** A non-trivial instance: look-behind, bracket, look-ahead, a swap class and [*]. *)
Example C24_example :
  ex_find """x""[""abc""]""y""~" "*""-""%sw" "xabcy" = Some (Ok (Some (lit "abc", lit "abc-AAc", 1, 3))) /\
  ex_find """x""[""abc""]""y""~" "*""-""%sw" "xabcyz" = Some (Ok None).
Proof. split; vm_compute; reflexivity. Qed.

(** ** C47: the look-behind instruction *)

(** [_n], anywhere in any part of a test, makes no difference to where the parts fit:
    conditions before the bracket are checked on the text directly before the replaced
    span, conditions after it on the text directly behind. *)
Theorem C47_lookback_makes_no_difference : forall members env at_start text n ts1 ts2 i j,
  Tests members env at_start text (ts1 ++ TLookback n :: ts2) i j <->
  Tests members env at_start text (ts1 ++ ts2) i j.
Proof.
  intros members env at_start text n ts1 ts2 i j. revert i. induction ts1 as [|t ts1 IH]; intros i; simpl.
  - split.
    + intros H. inversion H as [|t0 ts0 i0 k j0 T Ts]; subst. inversion T; subst. exact Ts.
    + intros H. econstructor; [apply T_lookback|exact H].
  - split; intros H; inversion H as [|t0 ts0 i0 k j0 T Ts]; subst;
      (econstructor; [exact T|apply IH, Ts]).
Qed.
Print Assumptions C47_lookback_makes_no_difference.
Example C47_example :
  ex_find "_1""a""[""b""]""c""_" """r""" "abc" = Some (Ok (Some (lit "b", lit "r", 1, 1))) /\
  ex_find """a""[""b""]""c""" """r""" "abc" = Some (Ok (Some (lit "b", lit "r", 1, 1))).
Proof. split; vm_compute; reflexivity. Qed.

(** ** C48: [$a] *)

(** A rule with the attribute "any" alone (documented to match any character) is never
    offered, whatever the text. *)
Theorem C48_any_attribute_never_matches_refuted :
  forall lower x before after test test_operand action o st p e at_start text,
  parse_tests test_operand = Good test [] -> forallb bracket_free test = true ->
  test = before ++ TAttributes [AAny] None :: after ->
  context_insert x test action o st = TOk p ->
  cpat_find lower p e at_start text = Ok None.
Proof.
  intros lower x before after test test_operand action o st p e at_start text P Fm Et C.
  destruct (C24_without_brackets_replaces_all lower x test test_operand action o st p e at_start text P Fm C)
    as (r & E & H).
  destruct r as [t|]; [|exact E]. exfalso. destruct H as (j & (_ & T & _) & _).
  subst test. clear -T. revert T. generalize 0 as i.
  induction before as [|t0 before IH]; intros i T; simpl in T.
  - inversion T as [|t1 ts0 i0 k j0 T1 Ts]; subst. inversion T1; subst.
    match goal with K : count_ok None _ |- _ => simpl in K; subst end.
    match goal with K : stretch _ _ _ _ |- _ => destruct (K i ltac:(lia)) as (a & _ & cl & [Q|[]] & _) end. discriminate.
  - inversion T as [|t1 ts0 i0 k j0 T1 Ts]; subst. eapply IH. exact Ts.
Qed.
Print Assumptions C48_any_attribute_never_matches_refuted.
Example C48_example :
  (exists ts, parse_tests (lit """x""$a") = Good ts [] /\ ts = [TString (lit "x")] ++ TAttributes [AAny] None :: [] /\
     forallb bracket_free ts = true) /\ ex_find """x""$a" "*" "xy" = Some (Ok None).
Proof. split; [eexists; split; [vm_compute; reflexivity|split; reflexivity]|vm_compute; reflexivity]. Qed.
