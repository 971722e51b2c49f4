(** C03, C05, C06 for the correct, pass2, pass3 and pass4 passes: which rule is applied
    where, and the values its variables have. *)
From Coq Require Import Strings.String.
From Coq Require Import List.
From Verif Require Import Base BaseProofs RuleModel TranslationModel TableModel RegexpModel
  PatternModel OperandModel OperandProofs TestSpec PatternProofs PropContext LoopModel LoopProofs MultipassProofs
  PassSpec PassProofs VariableSpec VariableProofs PropMultipass.

(** ** C06 *)
(** Every piece of the trace of a pass is the choice [PassSpec.chosen_next] describes for
    the pieces before it, and behind the last there is nothing left to do. *)
Theorem C06_passes_choose : forall lower rules d st x ps text out,
  multipass_compile rules d st x = TOk ps -> multipass_trace lower ps st text = Ok out ->
  (forall a t b, out = a ++ t :: b -> chosen_next lower st text ps a t) /\ pass_over lower text ps out.
Proof.
  intros lower rules d st x ps text out C T. eapply trace_choices; [|exact T]. eapply patterns_ok, C.
Qed.
Print Assumptions C06_passes_choose.

(** ** C03, C05 *)
Section Values.
Variable lower : char -> list char.
Variable rules : list rule.
Variable d : direction.
Variable st : stage.
Variable x : context.
Variable ps : list cpat.
Variable text : str.
Variable out : list resolved.
Hypothesis C : multipass_compile rules d st x = TOk ps.
Hypothesis T : multipass_trace lower ps st text = Ok out.

(** the patterns of a pass are those of the rules that take part *)
Lemma consumes_writes action : consumes_input action = true <-> exists s, In (ActString s) action \/ In (ActDots s) action.
Proof.
  unfold consumes_input. rewrite existsb_exists. split.
  - intros (i & Hi & E). destruct i; try discriminate; eauto.
  - intros (s & [H|H]); [exists (ActString s)|exists (ActDots s)]; auto.
Qed.
Lemma patterns_of : forall rules ps, multipass_compile rules d st x = TOk ps ->
  (forall p, In p ps -> exists r test action, In r rules /\ pass_rule r test action /\ takes_part d action /\ context_insert x test action r st = TOk p) /\
  (forall r test action, In r rules -> pass_rule r test action -> takes_part d action -> exists p, In p ps /\ context_insert x test action r st = TOk p).
Proof.
  clear. assert (NT : forall action, (match d with Backward => true | Forward => false end && negb (consumes_input action))%bool = true <-> ~ takes_part d action).
  { intros action. unfold takes_part. rewrite Bool.andb_true_iff, Bool.negb_true_iff, <- consumes_writes. destruct d; [intuition congruence|].
    destruct (consumes_input action); split; intuition congruence. }
  intros rules. induction rules as [|r rest IH]; intros ps C; [injection C as <-; split; [intros p []|intros r test action []]|].
  assert (Skip : multipass_compile rest d st x = TOk ps -> (forall test action, pass_rule r test action -> ~ takes_part d action) ->
    (forall p, In p ps -> exists r0 test action, In r0 (r :: rest) /\ pass_rule r0 test action /\ takes_part d action /\ context_insert x test action r0 st = TOk p) /\
    (forall r0 test action, In r0 (r :: rest) -> pass_rule r0 test action -> takes_part d action -> exists p, In p ps /\ context_insert x test action r0 st = TOk p)).
  { intros Cr N. destruct (IH ps Cr) as [A B]. split.
    - intros p Hp. destruct (A p Hp) as (r0 & test & action & X1 & X2). exists r0, test, action. split; [right; exact X1|exact X2].
    - intros r0 test action [<-|I] K TP; [destruct (N _ _ K TP)|]. exact (B _ _ _ I K TP). }
  assert (Take : forall test action k, (r = RCorrect test action k \/ r = RPass2 test action k \/ r = RPass3 test action k \/ r = RPass4 test action k) ->
    (if (match d with Backward => true | Forward => false end && negb (consumes_input action))%bool then multipass_compile rest d st x
     else tdo p <- context_insert x test action r st; tdo ps <- multipass_compile rest d st x; TOk (p :: ps)) = TOk ps ->
    (forall p, In p ps -> exists r0 test action, In r0 (r :: rest) /\ pass_rule r0 test action /\ takes_part d action /\ context_insert x test action r0 st = TOk p) /\
    (forall r0 test action, In r0 (r :: rest) -> pass_rule r0 test action -> takes_part d action -> exists p, In p ps /\ context_insert x test action r0 st = TOk p)).
  { intros test action k K E. assert (U : forall t' a', pass_rule r t' a' -> t' = test /\ a' = action).
    { intros t' a' (k' & K'). destruct K as [->|[->|[->| ->]]]; destruct K' as [K'|[K'|[K'|K']]]; try discriminate K'; injection K' as -> -> _; auto. }
    destruct (_ && _)%bool eqn:NTa.
    - apply Skip; [exact E|]. intros t' a' K'. destruct (U _ _ K') as [-> ->]. apply NT, NTa.
    - assert (TP : takes_part d action).
      { unfold takes_part. intros ->. apply consumes_writes. destruct (consumes_input action); [reflexivity|discriminate NTa]. }
      destruct (context_insert x test action r st) as [p| |] eqn:CI; try discriminate E. cbn [tbind] in E.
      destruct (multipass_compile rest d st x) as [ps'| |]; try discriminate E. cbn [tbind] in E. injection E as <-.
      destruct (IH ps' eq_refl) as [A B]. split.
      + intros q [<-|Hq]; [exists r, test, action; split; [left; reflexivity|]; split; [exists k; exact K|]; split; [exact TP|exact CI]|].
        destruct (A q Hq) as (r0 & test0 & action0 & X1 & X2). exists r0, test0, action0. split; [right; exact X1|exact X2].
      + intros r0 t' a' [<-|I] K' TP'; [destruct (U _ _ K') as [-> ->]; exists p; split; [left; reflexivity|exact CI]|].
        destruct (B _ _ _ I K' TP') as (q & Hq & Eq). exists q. split; [right; exact Hq|exact Eq]. }
  destruct r; try (apply Skip; [exact C|intros t' a' (k' & K'); destruct K' as [K'|[K'|[K'|K']]]; discriminate K']);
    cbn [multipass_compile] in C; eapply Take; [|exact C| |exact C| |exact C| |exact C]; eauto.
Qed.
Lemma pattern_of p : In p ps -> exists r test action, In r rules /\ pass_rule r test action /\ takes_part d action /\ context_insert x test action r st = TOk p.
Proof. apply (proj1 (patterns_of rules ps C)). Qed.
Lemma rule_action r test action : pass_rule r test action -> action_of r = action.
Proof. intros (k & [->|[->|[->| ->]]]); reflexivity. Qed.
Lemma found_effects a u : finds lower text ps a u -> exists r test action, In r rules /\ pass_rule r test action /\
  r_origin u = Some r /\ r_effects u = effects_of action.
Proof.
  intros (e & p & _ & Hp & F). destruct (pattern_rule _ _ _ _ _ C p Hp) as (r & test & action & Hr & K & CI).
  destruct (rule_offer _ _ _ _ _ _ _ _ _ _ _ CI F) as (X1 & _ & X3). exists r, test, action. auto.
Qed.
Lemma effects_sets action : effects_of action = sets (assignments_in action).
Proof.
  unfold effects_of, assignments_in, sets. induction action as [|i l IH]; [reflexivity|].
  destruct i; cbn [flat_map app map fst snd]; rewrite ?IH; reflexivity.
Qed.
Lemma piece_effects a t b : out = a ++ t :: b -> r_effects t = sets (assignments_of [t]).
Proof.
  intros E. destruct (C06_passes_choose lower rules d st x ps text out C T) as [H _]. specialize (H a t b E).
  unfold assignments_of. cbn [flat_map]. rewrite app_nil_r.
  assert (G : forall b u, finds lower text ps b u -> r_origin u = r_origin t -> r_effects u = r_effects t ->
     r_effects t = sets match r_origin t with Some r => assignments_in (action_of r) | None => [] end).
  { intros b0 u F Eo Ee. destruct (found_effects b0 u F) as (r & test & action & _ & K & Er & Ef).
    rewrite <- Eo, <- Ee, Er, Ef, (rule_action _ _ _ K). apply effects_sets. }
  destruct H as [(_ & [((b0 & c & y & v & _ & _ & F & _ & _ & ->) & _)|(_ & l1 & p & l2 & Ep & D & _)])|(_ & c & r & _ & ->)].
  - apply (G b0 v F); reflexivity.
  - destruct D as ((e & q & He & Hq & F) & _). apply (G a t); auto. exists e, q. split; [exact He|]. split; [|exact F].
    destruct Hq as [<-|[]]. rewrite Ep. apply in_or_app. right. left. reflexivity.
  - reflexivity.
Qed.
Lemma prefix_effects a : forall b, out = a ++ b -> flat_map r_effects a = sets (assignments_of a).
Proof.
  induction a as [|t a IH] using rev_ind; intros b E; [reflexivity|].
  rewrite <- app_assoc in E. cbn [app] in E. unfold assignments_of in *. rewrite !flat_map_app, sets_app, <- (IH _ E).
  f_equal. cbn [flat_map]. rewrite app_nil_r. rewrite (piece_effects a t b E). unfold assignments_of. cbn [flat_map]. reflexivity.
Qed.
Lemma prefix_values a b e : out = a ++ b -> assigned a e -> values_of (assignments_of a) e.
Proof. intros E A. eapply assigned_values; [|exact A]. eapply prefix_effects, E. Qed.
End Values.

(** A piece that is not a copied character is the replacement a rule of the pass makes; the
    test of the rule, looked at from the place some earlier pieces [a1] led to, fits with
    its bracket on exactly the text replaced; and the variables compared in it have the
    values assigned last by the rules applied within those pieces - all are unset at the
    start of the pass. *)
Theorem C05_variables_of_a_pass : forall lower rules d st x ps text out a t b,
  parsed rules -> multipass_compile rules d st x = TOk ps ->
  multipass_trace lower ps st text = Ok out -> out = a ++ t :: b ->
  (exists c, r_input t = [c] /\ r_output t = [c] /\ r_origin t = None) \/
  (exists r test action, In r rules /\ pass_rule r test action /\ takes_part d action /\ r_origin t = Some r /\
     r_output t = flat_map (action_output (table_swap x) (r_input t)) action /\
     forall before mid after, parts test before mid after ->
       exists a1 a2 e s f j, a = a1 ++ a2 /\ values_of (assignments_of a1) e /\
         covered a1 + s = covered a /\ f = s + length (r_input t) /\
         fits x st e (Nat.eqb (covered a1) 0) (skipn (covered a1) text) before mid after s f j).
Proof.
  intros lower rules d st x ps text out a t b PR C T E.
  destruct (C06_passes_choose lower rules d st x ps text out C T) as [H _]. specialize (H a t b E).
  assert (G : forall a1 a2 u, a = a1 ++ a2 -> finds lower text ps a1 u -> r_offset u = stood_for a2 -> t = with_offset u 0 ->
    exists r test action, In r rules /\ pass_rule r test action /\ takes_part d action /\ r_origin t = Some r /\
     r_output t = flat_map (action_output (table_swap x) (r_input t)) action /\
     forall before mid after, parts test before mid after ->
       exists a1 a2 e s f j, a = a1 ++ a2 /\ values_of (assignments_of a1) e /\
         covered a1 + s = covered a /\ f = s + length (r_input t) /\
         fits x st e (Nat.eqb (covered a1) 0) (skipn (covered a1) text) before mid after s f j).
  { intros a1 a2 u Ea (e & p & Ae & Hp & F) Eo ->. destruct (pattern_of rules d st x ps C p Hp) as (r & test & action & Hr & K & TP & CI).
    exists r, test, action. destruct (rule_offer _ _ _ _ _ _ _ _ _ _ _ CI F) as (X1 & X2 & _).
    cbn [with_offset r_origin r_output r_input]. split; [exact Hr|]. split; [exact K|]. split; [exact TP|]. split; [exact X1|]. split; [exact X2|].
    intros before mid after D. destruct (PR r test action Hr K) as (operand & P).
    destruct (rule_found lower x test operand action r st p e (Nat.eqb (covered a1) 0) (skipn (covered a1) text) before mid after P D CI)
      as (res & Er & H'). change (covered a1) with (stood_for a1) in Er, H'. rewrite F in Er. injection Er as <-.
    destruct H' as (s & f & j & Fi & B1 & B2 & B3 & B4 & B5 & B6).
    exists a1, a2, e, s, f, j. split; [exact Ea|]. split.
    - eapply (prefix_values lower rules d st x ps text out C T a1 (a2 ++ with_offset u 0 :: b)); [|exact Ae].
      rewrite app_assoc, <- Ea. exact E.
    - split; [rewrite Ea; unfold covered; rewrite flat_map_app, app_length; unfold stood_for in Eo; lia|].
      split; [lia|exact Fi]. }
  destruct H as [(_ & [((b0 & c & y & v & Ea & _ & F & _ & Eo & Et) & _)|(_ & l1 & p & l2 & Ep & ((e & q & He & Hq & F) & Z & _) & _)])|(_ & c & r & _ & ->)].
  - right. eapply (G b0 (c ++ [y]) v); eauto.
  - right. apply (G a [] t); [rewrite app_nil_r; reflexivity| |exact Z|].
    + exists e, q. split; [exact He|]. split; [|exact F]. destruct Hq as [<-|[]]. rewrite Ep. apply in_or_app. right. left. reflexivity.
    + destruct t. cbn in Z. subst. reflexivity.
  - left. exists c. auto.
Qed.
Print Assumptions C05_variables_of_a_pass.

(** No rule is missed.  Where a character is copied, and at the end of the text, no rule that
    takes part and whose test begins with its bracket (or has none) fits - except that it
    inserts something that has been inserted already since text was last replaced. *)
Definition nothing_fits (rules : list rule) (d : direction) (st : stage) (x : context) (text : str) (a : list resolved) : Prop :=
  exists e, values_of (assignments_of a) e /\
  forall r test action mid after, In r rules -> pass_rule r test action -> takes_part d action -> parts test [] mid after ->
    (forall f j, ~ fits x st e (Nat.eqb (covered a) 0) (skipn (covered a) text) [] mid after 0 f j) \/
    (exists y, In y a /\ r_input y = [] /\ r_output y = flat_map (action_output (table_swap x) []) action).
Lemma insertions_in a : forall u, In (subset_of u) (insertions a) -> exists y, In y a /\ r_length y = 0 /\ subset_of y = subset_of u.
Proof.
  induction a as [|t a IH] using rev_ind; [intros u []|]. intros u. unfold insertions. rewrite fold_left_app. cbn [fold_left].
  change (fold_left _ a []) with (insertions a). destruct (Nat.eqb_spec (r_length t) 0) as [Z|Z].
  - intros [E|H]; [exists t; split; [apply in_or_app; right; left; reflexivity|auto]|]. destruct (IH u H) as (y & Hy & Y). exists y. split; [apply in_or_app; left; exact Hy|exact Y].
  - destruct (r_origin t); [intros []|]. intros H. destruct (IH u H) as (y & Hy & Y). exists y. split; [apply in_or_app; left; exact Hy|exact Y].
Qed.
Section Missed.
Variable lower : char -> list char.
Variable rules : list rule.
Variable d : direction.
Variable st : stage.
Variable x : context.
Variable ps : list cpat.
Variable text : str.
Variable out : list resolved.
Hypothesis PR : parsed rules.
Hypothesis C : multipass_compile rules d st x = TOk ps.
Hypothesis T : multipass_trace lower ps st text = Ok out.
Lemma prefix_assigned a : forall b, out = a ++ b -> exists e, assigned a e.
Proof.
  intros b E. unfold assigned. rewrite (prefix_effects lower rules d st x ps text out C T a b E).
  generalize (assignments_of a) env_new. intros l. induction l as [|[v n] l IH]; intros e; [eexists; reflexivity|]. cbn. apply IH.
Qed.
Lemma quiet_prefix a b : out = a ++ b -> (forall u, ~ direct lower text ps a u) -> nothing_fits rules d st x text a.
Proof.
  intros E N. destruct (prefix_assigned a b E) as (e & Ae). exists e. split; [exact (prefix_values lower rules d st x ps text out C T a b e E Ae)|].
  intros r test action mid after Hr K TP D. destruct (PR r test action Hr K) as (operand & P).
  destruct (proj2 (patterns_of d st x rules ps C) r test action Hr K TP) as (p & Hp & CI).
  destruct (rule_found lower x test operand action r st p e (Nat.eqb (covered a) 0) (skipn (covered a) text) [] mid after P D CI) as (res & Er & H).
  destruct res as [u|]; [|left; intros f j; apply H]. right. destruct H as (s & f & j & (F0 & _) & _ & _ & _ & O & L & I).
  assert (s = 0) as Z by (inversion F0; reflexivity). clear F0. rewrite Z in *. clear Z. assert (In (subset_of u) (insertions a)) as IN.
  { destruct (in_dec (fun p q : subset => ltac:(repeat decide equality)) (subset_of u) (insertions a)) as [IN|NI]; [exact IN|]. destruct (N u).
    split; [exists e, p; split; [exact Ae|]; split; [exact Hp|exact Er]|]. split; [exact O|exact NI]. }
  destruct (insertions_in a u IN) as (y & Hy & Ly & Es). unfold subset_of in Es. injection Es as E1 E2 E3 _.
  exists y. split; [exact Hy|]. assert (r_input y = []) as Ey by (apply length_zero_iff_nil; rewrite E1, I, <- L, <- E3; exact Ly).
  split; [exact Ey|]. rewrite E2. destruct (rule_offer _ _ _ _ _ _ _ _ _ _ _ CI Er) as (_ & X2 & _). rewrite X2, <- E1, Ey. reflexivity.
Qed.
Theorem C06_passes_miss_no_rule :
  (forall a t b, out = a ++ t :: b -> r_origin t = None -> nothing_fits rules d st x text a) /\ nothing_fits rules d st x text out.
Proof.
  destruct (C06_passes_choose lower rules d st x ps text out C T) as [H O]. split.
  - intros a t b E N. apply (quiet_prefix a (t :: b) E). intros u Du. specialize (H a t b E).
    destruct H as [(_ & [((b0 & c & y & v & _ & _ & F & _ & _ & ->) & _)|(_ & l1 & p & l2 & Ep & ((e & q & He & Hq & F) & _ & _) & _)])|(Q & _)].
    + destruct (found_effects lower rules d st x ps text C b0 v F) as (r & _ & _ & _ & _ & Er & _). cbn in N. congruence.
    + assert (F' : finds lower text ps a t). { exists e, q. split; [exact He|]. split; [|exact F]. destruct Hq as [<-|[]]. rewrite Ep. apply in_or_app. right. left. reflexivity. }
      destruct (found_effects lower rules d st x ps text C a t F') as (r & _ & _ & _ & _ & Er & _). congruence.
    + destruct (Q u). contradiction.
  - apply (quiet_prefix out []); [rewrite app_nil_r; reflexivity|]. intros u. apply O.
Qed.
End Missed.
Print Assumptions C06_passes_miss_no_rule.
(** Backward, no piece comes from a rule whose action writes no text of its own. *)
Theorem C37_rules_that_write_nothing_are_not_used_backward : forall lower rules st x ps text out t r,
  parsed rules -> multipass_compile rules Backward st x = TOk ps -> multipass_trace lower ps st text = Ok out ->
  In t out -> r_origin t = Some r -> exists test action s, pass_rule r test action /\ (In (ActString s) action \/ In (ActDots s) action).
Proof.
  intros lower rules st x ps text out t r PR C T I O. apply in_split in I. destruct I as (a & b & E).
  destruct (C05_variables_of_a_pass lower rules Backward st x ps text out a t b PR C T E) as [(c & _ & _ & N)|(r' & test & action & _ & K & TP & O' & _)]; [congruence|].
  destruct (TP eq_refl) as (s & W). exists test, action, s. split; [congruence|exact W].
Qed.
Print Assumptions C37_rules_that_write_nothing_are_not_used_backward.

(** [#1=1] is compared before and after it is assigned; of two rules for the same text the
    later one is used; and an offer found earlier wins against a rule of the same weight. *)
Example C05_example_variable :
  ex_pass [("""a""", "#1=1""x"""); ("#1=1""b""", """y""")]%string "bab" = Some (Ok (lit "bxy")).
Proof. vm_compute. reflexivity. Qed.
(** where "x" is copied the rule does not fit; where it fits it is used *)
Example C06_example_missed :
  ex_pass [("""a""[""b""]", """x"""); ("[""a""]""c""", """y""")]%string "acxab" = Some (Ok (lit "ycxax")).
Proof. vm_compute. reflexivity. Qed.
Example C06_example_ties :
  ex_pass [("""a""", """x"""); ("""a""", """y""")]%string "a" = Some (Ok (lit "y")) /\
  ex_pass [("""a""[""b""]", """x"""); ("""bc""", """y""")]%string "abc" = Some (Ok (lit "axc")).
Proof. split; vm_compute; reflexivity. Qed.

(** C05: what the store of the variables gives behind any changes made to it; it only fails
    if a variable holding 255 is incremented. *)
Lemma apply_snoc l : forall e f, env_apply_all e (l ++ [f]) = (do e' <- env_apply_all e l; env_apply e' f).
Proof.
  induction l as [|g l IH]; intros e f; cbn [app env_apply_all bind].
  - destruct (env_apply e f); reflexivity.
  - destruct (env_apply e g); cbn [bind]; [apply IH|reflexivity|reflexivity].
Qed.
Lemma get_put e s y v : env_get ((s, y) :: e) v = if N.eqb v s then Some y else env_get e v.
Proof. reflexivity. Qed.
Theorem C05_the_variable_store : forall l,
  (overflows l /\ env_apply_all env_new l = Panic) \/
  exists e, env_apply_all env_new l = Ok e /\ forall v, value_after v l (env_get e v).
Proof.
  intros l. induction l as [|f l IH] using rev_ind; [right; exists env_new; split; [reflexivity|intros v; constructor]|].
  rewrite apply_snoc. destruct IH as [[(l1 & l2 & v & y & -> & V & G) ->]|(e & -> & V)].
  - left. split; [|reflexivity]. exists l1, (l2 ++ [f]), v, y. split; [rewrite <- app_assoc; reflexivity|split; assumption].
  - cbn [bind]. destruct f as [s k]. unfold env_apply. cbn [ef_slot ef_kind].
    assert (OTHER : forall y v, v <> s -> value_after v (l ++ [mk_effect s k]) (env_get ((s, y) :: e) v)).
    { intros y v NE. rewrite get_put. destruct (N.eqb_spec v s); [contradiction|]. apply after_other; [cbn; congruence|apply V]. }
    assert (PUT : forall y, value_after s (l ++ [mk_effect s k]) (Some y) ->
              exists e', Ok ((s, y) :: e) = Ok e' /\ forall v, value_after v (l ++ [mk_effect s k]) (env_get e' v)).
    { intros y H. eexists; split; [reflexivity|]. intros v. destruct (N.eq_dec v s) as [->|NE]; [|apply OTHER, NE].
      rewrite get_put, N.eqb_refl. exact H. }
    pose proof (V s) as Vs. destruct k as [| |y].
    + destruct (env_get e s) as [y|] eqn:G.
      * destruct (N.ltb_spec y 255).
        -- right. apply PUT. apply (after_increment s l (Some y)); assumption.
        -- left. split; [|reflexivity]. exists l, [], s, y. repeat split; assumption.
      * right. apply PUT. apply (after_increment s l None Vs). reflexivity.
    + right. destruct (env_get e s) as [y|] eqn:G.
      * replace (if N.ltb 0 y then (y - 1)%N else 0%N) with (N.pred y) by (destruct (N.ltb_spec 0 y); lia). apply PUT.
        apply (after_decrement s l (Some y)). exact Vs.
      * apply PUT. apply (after_decrement s l None). exact Vs.
    + right. apply PUT. apply after_set.
Qed.
Print Assumptions C05_the_variable_store.
(** The value is one. *)
Theorem C05_one_value : forall v l x y, value_after v l x -> value_after v l y -> x = y.
Proof.
  intros v l x y H. revert y. induction H as [|l x f N H IH|l y0|l x H IH L|l x H IH]; intros y G.
  1: inversion G as [E|l' x' f' N' G' E|l' y' E|l' x' G' L' E|l' x' G' E]; [reflexivity|..]; apply app_eq_nil in E; destruct E; discriminate.
  all: inversion G as [E|l' x' f' N' G' E|l' y' E|l' x' G' L' E|l' x' G' E]; [destruct l; discriminate|..];
    apply app_inj_tail in E; destruct E as [-> EF]; subst; cbn in *; try congruence;
    first [apply IH; assumption | rewrite (IH _ G'); reflexivity].
Qed.
Print Assumptions C05_one_value.
Example ex_store : exists e, env_apply_all env_new [mk_effect 1 Increment; mk_effect 2 (SetTo 9); mk_effect 1 Increment; mk_effect 2 Decrement; mk_effect 3 Decrement] = Ok e /\
  env_get e 1 = Some 2%N /\ env_get e 2 = Some 8%N /\ env_get e 3 = Some 0%N /\ env_get e 4 = None.
Proof. eexists. repeat split. Qed.
