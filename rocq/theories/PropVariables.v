(** C05 for the main pass: the values its context rules see of the variables. *)
From Coq Require Import Strings.String.
From Coq Require Import List.
From Verif Require Import Base BaseProofs RuleModel TranslationModel TranslationProofs TableModel RegexpModel
  RegexpSpec PatternModel OperandModel OperandProofs MatchProofs TestSpec PropContext TrieModel TrieProofs PropTrie
  HyphenationModel HyphenationProofs LoopModel LoopProofs MultipassProofs PropMultipass VariableSpec VariableProofs PropPasses
  PrimaryProofs PrimaryTrace CompileModel CompileSpec
  CompileProofs MainTable ConstraintModel ConstraintSpec ConstraintProofs IndicatorModel IndicatorProofs
  CapsSpec CapsProofs CapsFacts EmphSpec EmphProofs MainSpec StepProofs TraceSpec MainPass StepFacts TraceProofs PropMain PropMainExamples.

Section Steps.
Variable compat : bool.
Variable read_dictionary : str -> tres hyph.
Variable d : direction.
Variable x : context.
Variable rules : list rule.
Variable lower : char -> list char.
Variable p : ptable.
Hypothesis C : compiled compat read_dictionary d x rules p.
Variable lim : pos_flags.
Variable input : str.
Notation src := (rule_sources compat d x rules lower).

(** the effects of an offer are the assignments of its rule *)
Definition own_effects (u : resolved) : Prop := r_effects u = sets (assignments_of [u]).
Lemma own_none u r : r_effects u = [] -> r_origin u = r -> match r with Some r => action_of r = [] | None => True end -> own_effects u.
Proof.
  unfold own_effects, assignments_of. intros E1 E2. cbn [flat_map]. rewrite app_nil_r, E1, E2. destruct r as [r|]; [intros ->|]; reflexivity.
Qed.
Lemma word_action r a : In a (word_entries x r) -> action_of r = [].
Proof. unfold word_entries. destruct r; cbn; auto; intros []. Qed.
Lemma chars_action r c t : In (c, t) (first_characters r) \/ In (c, t) (other_characters d x rules r) -> action_of r = [].
Proof. destruct r; cbn; intros [H|H]; try destruct H; auto. Qed.
Lemma main_action a : In a (main_entries d x rules) -> exists r, i_origin a = Some r /\ action_of r = [].
Proof.
  unfold main_entries, main_entries_of, backward_only, character_entries. rewrite in_app_iff, !in_flat_map.
  assert (G : forall f r, (forall c t, In (c, t) (f r) -> action_of r = []) ->
     In a (if is_backward d then map (fun cd => mk_ins [fst cd] (snd cd) None None (rule_precedence r) [] Main (Some r)) (f r) else []) ->
     exists r, i_origin a = Some r /\ action_of r = []).
  { intros f r F H. destruct (is_backward d); [|destruct H]. apply in_map_iff in H. destruct H as ([c t] & <- & H). exists r. split; [reflexivity|]. eapply F, H. }
  intros [(r & _ & H)|(r & _ & H)].
  - eapply G; [|exact H]. intros c t I. eapply chars_action. left. exact I.
  - rewrite !in_app_iff in H. destruct H as [H|[H|H]].
    + eapply G; [|exact H]. intros c t I. eapply chars_action. right. exact I.
    + exists r. destruct r; try destruct H; cbn [indicator_entries] in H;
        match type of H with In _ (if ?b then _ else _) => destruct b; [|destruct H]; destruct H as [<-|[]] end; cbn; auto.
    + destruct (is_nocross r); [destruct H|]. exists r. split; [|eapply word_action, H]. apply word_oriented in H. apply H.
Qed.
Lemma text_own rest prev u : by_text src rest prev u -> own_effects u.
Proof.
  intros H. destruct (text_offer _ _ _ _ _ lower p C u rest prev H) as [(_ & _ & _ & _ & _ & E) _].
  destruct H as (full & a & F & _ & ->). apply in_force_in, main_action in F. destruct F as (r & Er & A). eapply (own_none _ (Some r)); [exact E|exact Er|exact A].
Qed.
Lemma nocross_own rest prev u : by_nocross src rest prev u -> own_effects u.
Proof.
  intros H. destruct (nocross_offer _ _ _ _ _ lower p C u rest prev H) as [(_ & _ & _ & _ & _ & E) _].
  destruct H as (full & a & F & _ & ->). apply in_force_in in F. unfold nocross_entries in F. rewrite in_flat_map in F.
  destruct F as (r & _ & H). destruct (is_nocross r); [|destruct H]. pose proof (word_action _ _ H) as A. apply word_oriented in H.
  eapply (own_none _ (Some r)); [exact E|apply H|exact A].
Qed.
Lemma comp6_own rest prev u : by_comp6 src rest prev u -> own_effects u.
Proof.
  intros H. destruct (comp6_offer _ _ _ _ _ lower p C u rest prev H) as [(_ & _ & _ & _ & _ & E) (r & _ & Er & K)].
  eapply (own_none _ (Some r)); [exact E|exact Er|]. destruct r; try discriminate. reflexivity.
Qed.
Lemma digit_own c u : as_digit src c u -> own_effects u.
Proof.
  intros H. apply assoc_in, digit_table_in in H. destruct H as (A & B & D & F & r' & ch & k & H1 & H2 & _ & H3).
  eapply (own_none _ (Some r')); [exact F|exact H2|]. destruct H3 as [-> | ->]; reflexivity.
Qed.
Lemma character_own c u : by_character src c u -> own_effects u.
Proof.
  intros H. destruct (character_facts _ _ _ _ _ _ C _ _ H) as [(_ & _ & _ & E) O]. destruct O as [O|(r & _ & O & dots & K)].
  - eapply (own_none _ None); [exact E|exact O|exact Coq.Init.Logic.I].
  - eapply (own_none _ (Some r)); [exact E|exact O|]. eapply chars_action. destruct K as [K|K]; [left|right]; exact K.
Qed.
Lemma match_effects q r u b rest : In q (match_entries x r) -> cpat_find lower q env_new b rest = Ok (Some u) -> r_effects u = [].
Proof.
  destruct r; try (intros []; fail). cbn [match_entries]. destruct (dots_of x dots chars) as [t| |]; try (intros []; fail).
  destruct (match_insert _ _ _ _ _ _) as [q'| |] eqn:E; try (intros []; fail). intros [<-|[]]. unfold match_insert in E.
  destruct (re_of_match _ _ _ _); try discriminate. injection E as <-. unfold cpat_find. cbn [cp_re cp_payload].
  destruct (regexp_find _ _ _ _ _) as [[f|]| |]; try discriminate. cbn [bind translation_resolve]. intros [= <-]. reflexivity.
Qed.
Lemma context_entry q r : In q (context_entries x r) -> exists test action k, r = RContext test action k /\ context_insert x test action r Main = TOk q.
Proof.
  destruct r; try (intros []; fail). cbn [context_entries].
  destruct (context_insert _ _ _ _ _) as [q'| |] eqn:E; try (intros []; fail). intros [<-|[]]. eauto.
Qed.
Lemma found_own a u : found src input a u -> own_effects u.
Proof.
  intros [(q & Hq & E)|(e & _ & (q & Hq & E))]; apply in_flat_map in Hq; destruct Hq as (r & Hr & Hq).
  - pose proof (match_entry_rule _ _ _ Hq) as (_ & K & O). eapply (own_none _ (Some r)).
    + eapply match_effects; [exact Hq|exact E].
    + rewrite <- O. eapply cpat_find_origin, E.
    + destruct r; try discriminate. reflexivity.
  - apply context_entry in Hq. destruct Hq as (test & action & k & -> & CI). destruct (rule_offer _ _ _ _ _ _ _ _ _ _ _ CI E) as (O & _ & Ef).
    unfold own_effects, assignments_of. cbn [flat_map]. rewrite app_nil_r, O, Ef. cbn [action_of]. apply effects_sets.
Qed.
Lemma step_own a y : best src d lim input a y -> own_effects (snd y).
Proof.
  destruct y as [[| |] t]; cbn [best snd].
  - intros ((H & _) & _). eapply nocross_own, H.
  - intros (H & _). unfold available in H. destruct (flag_at k_comp6 lim (reached a)); [eapply comp6_own, H|].
    destruct H as (_ & [(_ & _ & c & r & _ & H)|(H & _)]); [eapply digit_own, H|].
    destruct H as [H|[[H _]|(b & c & v & _ & H & _ & _ & _ & ->)]]; [eapply text_own, H|eapply found_own, H|].
    apply found_own in H. exact H.
  - intros ((c & r & _ & H) & _). eapply character_own, H.
Qed.
Lemma derivation_own ts : derivation src d lim input ts ->
  flat_map (fun y => r_effects (snd y)) ts = sets (assignments_of (map snd ts)).
Proof.
  induction 1 as [|a y D IH Hb]; [reflexivity|]. apply step_own in Hb. unfold own_effects, assignments_of in *.
  rewrite map_app, !flat_map_app. rewrite (sets_app (flat_map _ (map snd a))), <- IH. f_equal. cbn [flat_map map] in *. rewrite app_nil_r. exact Hb.
Qed.
End Steps.

Section Main.
Variable is_alphabetic : char -> bool.
Variable compat : bool.
Variable read_dictionary : str -> tres hyph.
Variable d : direction.
Variable x : context.
Variable rules : list rule.
Variable lower upper : char -> list char.
Variable sort : list event -> res (list event).
Variable m : main_table.
Hypothesis B : main_built is_alphabetic compat read_dictionary d x rules m.
Hypothesis DR : dictionaries_read read_dictionary.
Hypothesis SR : sort_rearranges sort.
Notation trace := (main_trace lower upper sort m).
Notation src := (rule_sources compat d x rules lower).

Lemma shown_assignments lim ts : forall pos, assignments_of (show_all upper d lim pos ts) = assignments_of (map snd ts).
Proof.
  induction ts as [|y ts IH]; intros pos; [reflexivity|]. cbn [show_all map]. unfold assignments_of in *. cbn [flat_map]. rewrite IH. f_equal.
  destruct (shown_fields upper d lim pos y) as (_ & _ & E & _). rewrite E. reflexivity.
Qed.
Lemma show_all_app lim ts1 ts2 : forall pos, show_all upper d lim pos (ts1 ++ ts2) = show_all upper d lim pos ts1 ++ show_all upper d lim (pos + reached ts1) ts2.
Proof.
  induction ts1 as [|y ts IH]; intros pos; cbn [show_all app]; [unfold reached; cbn; rewrite Nat.add_0_r; reflexivity|].
  rewrite IH, reached_cons, Nat.add_assoc. reflexivity.
Qed.
Lemma show_all_position lim ts : forall pos, position (show_all upper d lim pos ts) = reached ts.
Proof.
  induction ts as [|z l IH]; intros pos; [reflexivity|]. unfold position. cbn [show_all map list_sum fold_right].
  change (fold_right Nat.add 0 (map r_length (show_all upper d lim (pos + r_length (snd z)) l))) with (position (show_all upper d lim (pos + r_length (snd z)) l)).
  rewrite IH, reached_cons. destruct (shown_fields upper d lim pos z) as (-> & _). reflexivity.
Qed.

(** Where a context rule was applied, its test fits, with its bracket on exactly the text
    replaced, looked at from the place some earlier pieces [a1] led to; and the variables
    compared in it have the values assigned last by the rules applied within those pieces -
    all are unset at the start of the pass. *)
Theorem C05_variables_of_the_main_pass : forall input spans out a t b test action k operand before mid after,
  trace input spans = Ok out -> out = a ++ t :: b -> r_origin t = Some (RContext test action k) ->
  parse_tests operand = Good test [] -> parts test before mid after ->
  exists a1 a2 e s f j, text_pieces a = a1 ++ a2 /\ values_of (assignments_of a1) e /\
    position a1 + s = position a /\ f = s + r_length t /\
    fits x Main e (Nat.eqb (position a1) 0) (skipn (position a1) input) before mid after s f j.
Proof.
  intros input spans out a t b test action k operand before mid after E Eo Er PT PA.
  assert (NS : is_sign t = false) by (unfold is_sign; rewrite Er; cbn; apply andb_false_r).
  destruct (C06_every_choice_is_the_strongest _ _ _ _ _ _ lower upper sort m B DR SR input spans out a t b E Eo NS)
    as (sp & lim & ts & h & u & _ & _ & D & SA & R & Hb & Et).
  destruct (shown_fields upper d lim (position a) (h, u)) as (L1 & L2 & L3 & _). rewrite <- Et in L1, L2, L3. cbn [snd] in L1, L2, L3.
  rewrite Er in L3. symmetry in L3. pose proof (mb_rules _ _ _ _ _ _ _ B) as C.
  (* the piece was found by its pattern *)
  assert (F : exists ts1 ts2 v, ts = ts1 ++ ts2 /\ found src input ts1 v /\ reached ts2 = r_offset v /\ r_length v = r_length u /\ r_origin v = r_origin u).
  { destruct h; cbn [best] in Hb.
    - destruct Hb as ((H & _) & _). destruct (nocross_offer _ _ _ _ _ lower _ C _ _ _ H) as (_ & r & _ & Hr & N). rewrite L3 in Hr. injection Hr as <-. discriminate.
    - destruct Hb as (H & _). unfold available in H. destruct (flag_at k_comp6 lim (reached ts)).
      + destruct (comp6_offer _ _ _ _ _ lower _ C _ _ _ H) as (_ & r & _ & Hr & N). rewrite L3 in Hr. injection Hr as <-. discriminate.
      + destruct H as (_ & [H|(H & _)]).
        * destruct (digit_facts compat d x rules lower lim input _ _ H) as (_ & _ & r & _ & Hr & _ & _ & N & _). rewrite L3 in Hr. injection Hr as <-. discriminate.
        * destruct H as [H|[[H O]|(b1 & c1 & v & -> & H & _ & Hr & _ & ->)]].
          -- destruct (text_offer _ _ _ _ _ lower _ C _ _ _ H) as (_ & r & _ & Hr & _ & _ & N & _). rewrite L3 in Hr. injection Hr as <-. discriminate.
          -- exists ts, [], u. rewrite app_nil_r. split; [reflexivity|]. split; [exact H|]. split; [rewrite O; reflexivity|]. auto.
          -- exists b1, c1, v. split; [reflexivity|]. split; [exact H|]. split; [exact Hr|]. split; reflexivity.
    - destruct Hb as ((c & r & _ & H) & _). apply (character_facts _ _ _ _ _ _ C) in H. destruct H as (_ & [H|(r' & _ & H & dots & K)]); [congruence|].
      rewrite L3 in H. injection H as <-. destruct K as [[]|[]]. }
  destruct F as (ts1 & ts2 & v & -> & Fv & Rv & Lv & Ov).
  assert (D1 : derivation src d lim input ts1) by (eapply derivation_prefix, D).
  destruct Fv as [(q & Hq & Eq)|(e & Ve & (q & Hq & Eq))]; apply in_flat_map in Hq; destruct Hq as (r & Hr & Hq).
  - destruct (match_entry_rule _ _ _ Hq) as (_ & K & O). pose proof (cpat_find_origin _ _ _ _ _ _ Eq) as X. rewrite O, Ov, L3 in X. injection X as X. subst r. discriminate.
  - apply context_entry in Hq. destruct Hq as (test' & action' & k' & -> & CI). destruct (rule_offer _ _ _ _ _ _ _ _ _ _ _ CI Eq) as (X & _). rewrite Ov, L3 in X.
    injection X as <- <- <-.
    destruct (rule_found lower x test operand action _ Main q e (Nat.eqb (reached ts1) 0) (left input ts1) before mid after PT PA CI) as (res & E1 & H').
    pose proof (eq_trans (eq_sym Eq) E1) as X. injection X as <-. destruct H' as (s & f & j & Fi & B1 & B2 & B3 & B4 & B5 & B6).
    exists (show_all upper d lim 0 ts1), (show_all upper d lim (0 + reached ts1) ts2), e, s, f, j.
    split; [rewrite <- SA; apply show_all_app|]. split.
    { rewrite shown_assignments. unfold variables in Ve. eapply assigned_values; [|exact Ve]. eapply derivation_own; [exact C|exact D1]. }
    rewrite !show_all_position. rewrite <- R, reached_app. split; [lia|]. split; [lia|exact Fi].
Qed.
End Main.
Print Assumptions C05_variables_of_the_main_pass.

(** [context "a" #1=1@1] and [context #1=1"b" @2]: the second applies behind the first only. *)
Definition ex_set : rule := RContext [TString (lit "a")] [ActAssignment 1%N 1%N; ActDots (b 1)] K.
Definition ex_use : rule := RContext [TVariable 1%N OpEq 1%N; TString (lit "b")] [ActDots (b 2)] K.
Example C05_example_main :
  parse_tests (lit "#1=1""b""") = Good [TVariable 1%N OpEq 1%N; TString (lit "b")] [] /\
  ex_run Forward (ex_letters ++ [ex_set; ex_use]) (lit "bab") [] =
    Some [(lit "b", b 3); (lit "a", b 1); (lit "b", b 2)].
Proof. split; vm_compute; reflexivity. Qed.
