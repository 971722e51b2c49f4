(** C56 (a piece has the text and the dots of the rule it names), C36 ([=] in a trace). *)
From Coq Require Import Permutation.
From Verif Require Import Base BaseProofs RuleModel TranslationModel TranslationProofs TableModel TableProofs RegexpModel
  RegexpSpec PatternModel MatchProofs TrieModel TrieProofs PropTrie
  HyphenationModel HyphenationProofs LoopModel LoopProofs MultipassProofs PrimaryProofs PrimaryTrace CompileModel CompileSpec
  CompileProofs MainTable ConstraintModel ConstraintSpec ConstraintProofs IndicatorModel IndicatorProofs
  CapsSpec CapsProofs CapsFacts EmphSpec EmphProofs MainSpec StepProofs TraceSpec MainPass StepFacts TraceProofs PropMain WordSpec
  SaysSpec PropMainExamples FaultSpec.

Section Pieces.
Variable is_alphabetic : char -> bool.
Variable compat : bool.
Variable read_dictionary : str -> tres hyph.
Variable d : direction.
Variable x : context.
Variable rules : list rule.
Variable lower upper : char -> list char.
Variable sort : list event -> res (list event).
Variable m : main_table.
Hypothesis B : main_built is_alphabetic compat read_dictionary d x rules m.
Hypothesis DR : dictionaries_read read_dictionary.
Hypothesis SR : sort_rearranges sort.
Notation trace := (main_trace lower upper sort m).
Notation src := (rule_sources compat d x rules lower).

Lemma dots_means b t dots : dots_of x b t = TOk dots -> means x b t dots.
Proof. unfold dots_of. destruct b; cbn [means braille_to_unicode]; intros H; [apply resolve_implicit_ok, H|]. injection H as <-; reflexivity. Qed.
Lemma word_says r e : In e (word_entries x r) -> i_origin e = Some r /\ says x r (i_from e) (i_to e).
Proof.
  unfold word_entries. destruct r; cbn [word_insertions]; try (intros []; fail);
    try (match goal with |- context [dots_of x ?b ?t] => destruct (dots_of x b t) as [tt| |] eqn:ED; cbn [tbind]; try (intros []; fail); apply dots_means in ED end); cbn [In];
    try (destruct (forallb _ _); cbn [In]; try (intros []; fail));
    intros H; repeat (destruct H as [<-|H]; [split; [reflexivity|]; split; [reflexivity|first [exact ED|reflexivity]]|]); destruct H.
Qed.
Lemma character_says f r e : f = first_characters \/ f = other_characters d x rules ->
  In e (character_entries f r) -> i_origin e = Some r /\ says x r (i_from e) (i_to e).
Proof.
  intros F H. unfold character_entries in H. apply in_map_iff in H. destruct H as ([c g] & <- & H). cbn [fst snd i_origin i_from i_to].
  split; [reflexivity|]. destruct F as [-> | ->]; destruct r; cbn in H; try destruct H as [[= <- <-]|[]]; try (destruct H; fail); try (split; reflexivity).
  - destruct (mem _ _); [destruct H|]. destruct H as [[= <- <-]|[]]. split; reflexivity.
  - destruct (defs_get _ _) eqn:E; [|destruct H]. destruct H as [[= <- <-]|[]]. split; [reflexivity|exact E].
Qed.

Lemma indicator_says r e : In e (indicator_entries d rules r) -> i_origin e = Some r /\ says x r (i_from e) (i_to e).
Proof.
  destruct r; try (intros []; fail); cbn [indicator_entries];
    match goal with |- In _ (if ?b then _ else _) -> _ => destruct b; [|intros []] end; intros [<-|[]]; cbn; auto.
Qed.
(** read and written, by direction *)
Definition as_said (r : rule) (t : resolved) (text dots : str) : Prop :=
  match d with
  | Forward => r_input t = text /\ r_output t = dots
  | Backward => if is_match r then r_input t = text /\ r_output t = dots else r_input t = dots /\ r_output t = text
  end.
Definition piece_says (u : resolved) : Prop :=
  exists r, In r rules /\ r_origin u = Some r /\
    (is_context r = true \/ exists text dots, says x r text dots /\ as_said r u text dots).
Lemma entry_says l rest prev u : l = main_entries d x rules \/ l = nocross_entries x rules \/ l = comp6_entries x rules ->
  rule_offers compat d x lower l rest prev u -> piece_says u.
Proof.
  intros EL (full & a & F & _ & ->). apply in_force_in in F.
  assert (Q : exists r, In r rules /\ i_origin a = Some r /\ is_match r = false /\ says x r (i_from a) (i_to a)).
  { assert (M : forall r, i_origin a = Some r -> is_match r = false).
    { intros r O. destruct EL as [-> |[-> | ->]].
      - apply main_entry_rule in F. destruct F as (r' & _ & O' & _ & M & _). rewrite O in O'. injection O' as <-. exact M.
      - apply nocross_oriented in F. destruct F as (_ & r' & _ & O' & N). rewrite O in O'. injection O' as <-. destruct r; try discriminate N; reflexivity.
      - apply comp6_entry_rule in F. destruct F as (r' & _ & O' & N). rewrite O in O'. injection O' as <-. destruct r; try discriminate N; reflexivity. }
    assert (P : exists r, In r rules /\ i_origin a = Some r /\ says x r (i_from a) (i_to a)).
    { destruct EL as [-> |[-> | ->]].
      - unfold main_entries in F. rewrite in_app_iff, !in_flat_map in F. destruct F as [(r & Hr & F)|(r & Hr & F)]; exists r; (split; [exact Hr|]).
        + unfold backward_only in F. destruct (is_backward d); [|destruct F]. eapply character_says, F. auto.
        + unfold main_entries_of in F. rewrite !in_app_iff in F. destruct F as [F|[F|F]].
          * unfold backward_only in F. destruct (is_backward d); [|destruct F]. eapply character_says, F. auto.
          * apply indicator_says, F.
          * destruct (is_nocross r); [destruct F|]. apply word_says, F.
      - unfold nocross_entries in F. apply in_flat_map in F. destruct F as (r & Hr & F). exists r. split; [exact Hr|].
        destruct (is_nocross r); [apply word_says, F|destruct F].
      - unfold comp6_entries in F. apply in_flat_map in F. destruct F as (r & Hr & F). exists r. split; [exact Hr|].
        destruct r; try destruct F. cbn [comp6_entries_of] in F. destruct (dots_of x dots chars) as [t| |] eqn:E; try destruct F as [<-|[]]; try destruct F.
        split; [reflexivity|]. split; [reflexivity|]. apply dots_means, E. }
    destruct P as (r & P1 & P2 & P3). exists r. auto. }
  destruct Q as (r & Hr & O & M & W). exists r. split; [exact Hr|]. split; [exact O|]. right. exists (i_from a), (i_to a). split; [exact W|].
  unfold as_said. rewrite M. unfold offer. cbn [resolved_new r_input r_output]. destruct d; cbn [sought given]; auto.
Qed.
Lemma match_says b rest u : pattern_offers lower (flat_map (match_entries x) rules) env_new b rest u -> piece_says u.
Proof.
  intros (p & Hp & F). apply in_flat_map in Hp. destruct Hp as (r & Hr & Hp). exists r. split; [exact Hr|].
  pose proof (match_entry_rule _ _ _ Hp) as (_ & M & O).
  split; [rewrite (cpat_find_origin _ _ _ _ _ _ F); exact O|]. right.
  destruct r; try destruct Hp. cbn [match_entries] in Hp. destruct (dots_of x dots chars) as [t| |] eqn:ED; try (destruct Hp; fail).
  destruct (match_insert _ _ _ _ _ _) as [q| |] eqn:EQ; try (destruct Hp; fail). destruct Hp as [<-|[]].
  exists chars, t. split; [split; [reflexivity|apply dots_means, ED]|].
  unfold match_insert in EQ. destruct (re_of_match _ _ _ _); [|discriminate]. injection EQ as <-.
  unfold cpat_find in F. cbn [cp_re cp_payload] in F. destruct (regexp_find _ _ _ _ _) as [[f|]| |]; try discriminate. cbn [bind translation_resolve] in F.
  injection F as <-. unfold as_said. cbn. destruct d; auto.
Qed.
Lemma found_says input a u : found src input a u -> piece_says u.
Proof.
  intros [H|(e & _ & H)]; [eapply match_says, H|]. destruct H as (p & Hp & F). apply in_flat_map in Hp. destruct Hp as (r & Hr & Hp).
  apply context_entry_rule in Hp. destruct Hp as (_ & C & O). exists r. split; [exact Hr|]. split; [rewrite (cpat_find_origin _ _ _ _ _ _ F); exact O|auto].
Qed.
Lemma best_says lim input a h u : best src d lim input a (h, u) -> r_origin u = None \/ piece_says u.
Proof.
  intros H. destruct h; cbn [best] in H.
  - destruct H as ((H & _) & _). right. eapply entry_says, H. auto.
  - destruct H as (H & _). right. unfold available in H. destruct (flag_at k_comp6 lim (reached a)).
    + eapply entry_says, H. auto.
    + destruct H as (_ & [(D & _ & c & r & _ & H)|(H & _)]).
      * cbn [as_digit rule_sources] in H. apply assoc_in, digit_table_in in H. destruct H as (_ & _ & I & _ & r' & ch & k & Hr & O & OU & K).
        exists r'. split; [exact Hr|]. split; [exact O|]. right. exists [ch], [c]. unfold as_said. rewrite D.
        destruct K as [-> | ->]; cbn [is_match says]; auto.
      * destruct H as [H|[(H & _)|(b & c & v & _ & H & _ & _ & _ & ->)]]; [eapply entry_says, H; auto|eapply found_says, H|].
        apply found_says in H. destruct H as (r & H1 & H2 & H3). exists r. split; [exact H1|]. split; [exact H2|].
        destruct H3 as [H3|(text & dots & H3 & H4)]; [auto|right]. exists text, dots. split; [exact H3|exact H4].
  - destruct H as ((c & r & _ & H) & _). cbn [by_character rule_sources] in H. unfold character_offers in H.
    destruct (character_lookup d x rules compat c) as [t|] eqn:E.
    + subst u. right. unfold character_lookup in E. apply assoc_in in E.
      assert (I : In (c, t) (character_table d x rules)) by (destruct compat; [exact E|apply in_rev, E]).
      unfold character_table in I. destruct (is_backward d) eqn:DB; [destruct I|]. rewrite in_app_iff, !in_flat_map in I.
      assert (W : forall f r0, f = first_characters \/ f = other_characters d x rules -> In r0 rules -> In (c, t) (char_pieces f r0) -> piece_says t).
      { intros f r0 F Hr0 I0. unfold char_pieces in I0. apply in_map_iff in I0. destruct I0 as ([c' g] & [= <- <-] & I0).
        destruct (character_says f r0 (mk_ins [c'] g None None (rule_precedence r0) [] Main (Some r0)) F) as [_ W].
        { unfold character_entries. apply in_map_iff. exists (c', g). auto. }
        exists r0. split; [exact Hr0|]. split; [reflexivity|]. right. exists [c'], g. split; [exact W|].
        unfold as_said. destruct d; [split; reflexivity|discriminate DB]. }
      destruct I as [(r0 & H1 & H2)|(r0 & H1 & H2)]; (eapply W; [|exact H1|exact H2]; auto).
    + left. destruct (undefined_dots rules); [subst u; reflexivity|]. destruct H as (h & _ & ->). reflexivity.
Qed.
Lemma not_sign_says input spans out a t b r : trace input spans = Ok out -> out = a ++ t :: b -> is_sign t = false ->
  r_origin t = Some r -> is_context r = false ->
  In r rules /\ exists text dots u, says x r text dots /\ as_said r u text dots /\ r_input t = r_input u /\
    (d = Forward -> r_output t = r_output u) /\ capitals upper (r_output u) (r_output t).
Proof.
  intros E Eo S Or C. destruct (pass_traced _ _ _ _ _ _ lower upper sort m B DR input spans out SR E) as (sp & em & caps & ind & lim & ts & T).
  destruct (text_piece_facts _ _ _ _ _ _ _ _ _ _ B _ _ _ _ _ _ _ _ _ _ _ _ T Eo S) as (ts1 & h & u & R & H & Et & L & O & _).
  destruct (best_says _ _ _ _ _ H) as [N|(r' & Hr & O' & W)]; [congruence|]. assert (r' = r) as -> by congruence.
  split; [exact Hr|]. destruct W as [W|(text & dots & W1 & W2)]; [congruence|]. exists text, dots, u. split; [exact W1|]. split; [exact W2|].
  split; [rewrite Et; apply (shown_fields upper d lim (position a) (h, u))|].
  split; [intros ->; rewrite Et; destruct h; reflexivity|].
  rewrite Et. clear. unfold shown, cased, capitals. destruct h; [| |auto]; destruct d; auto;
    (destruct (flag_at k_uppercase lim (position a)); [right; left; reflexivity|]);
    (destruct (flag_at k_titlecase lim (position a)); [|auto]); cbn [with_output r_output];
    (destruct (r_output u) as [|c l]; [auto|right; right; exists c, l; auto]).
Qed.

(** A sign has no text and the dots of its rule. *)
Theorem C56_signs : forall input spans out t r, trace input spans = Ok out -> In t out -> is_sign t = true -> r_origin t = Some r ->
  In r rules /\ says x r (r_input t) (r_output t) /\ r_input t = [].
Proof.
  intros input spans out t r E I S Or. apply in_split in I. destruct I as (a & b & Eo).
  destruct (C26_signs_come_from_the_table _ _ _ _ _ _ lower upper sort m B DR SR input spans out a t b E Eo S) as (_ & r' & Hr & O & SD & I).
  assert (r' = r) as -> by congruence. split; [exact Hr|]. split; [|exact I]. rewrite I. unfold says. destruct r; try discriminate SD; cbn in *; split; congruence.
Qed.
End Pieces.

Section Directions.
Variable is_alphabetic : char -> bool.
Variable compat : bool.
Variable read_dictionary : str -> tres hyph.
Variable x : context.
Variable rules : list rule.
Variable lower upper : char -> list char.
Variable sort : list event -> res (list event).
Variable m : main_table.
Hypothesis DR : dictionaries_read read_dictionary.
Hypothesis SR : sort_rearranges sort.
Notation trace := (main_trace lower upper sort m).

(** Forward, a piece that names a rule reads the text of the rule - but for the case of the
    letters (C01) - and writes its dots. *)
Theorem C56_forward : main_built is_alphabetic compat read_dictionary Forward x rules m ->
  forall input spans out t r, trace input spans = Ok out -> In t out -> r_origin t = Some r -> is_context r = false ->
  In r rules /\ says x r (r_input t) (r_output t).
Proof.
  intros B input spans out t r E I Or C. destruct (is_sign t) eqn:S.
  - destruct (C56_signs _ _ _ _ _ _ lower upper sort m B DR SR input spans out t r E I S Or) as (Hr & W & _). auto.
  - apply in_split in I. destruct I as (a & b & Eo).
    destruct (not_sign_says _ _ _ _ _ _ lower upper sort m B DR SR input spans out a t b r E Eo S Or C) as (Hr & text & dots & u & W & [A1 A2] & I & O & _).
    split; [exact Hr|]. rewrite I, (O eq_refl), A1, A2. exact W.
Qed.
(** Backward it reads the dots and writes the text, as it is or with capitals. *)
Theorem C56_backward : main_built is_alphabetic compat read_dictionary Backward x rules m ->
  forall input spans out t r, trace input spans = Ok out -> In t out -> is_sign t = false -> r_origin t = Some r ->
  is_context r = false -> is_match r = false ->
  In r rules /\ exists text, says x r text (r_input t) /\ capitals upper text (r_output t).
Proof.
  intros B input spans out t r E I S Or C M. apply in_split in I. destruct I as (a & b & Eo).
  destruct (not_sign_says _ _ _ _ _ _ lower upper sort m B DR SR input spans out a t b r E Eo S Or C) as (Hr & text & dots & u & W & A & I & _ & K).
  unfold as_said in A. rewrite M in A. destruct A as [A1 A2]. split; [exact Hr|]. exists text. rewrite I, A1. rewrite A2 in K. auto.
Qed.
(** Match rules are not turned round: backward too they read text and write dots. *)
Theorem C56_match_backward : main_built is_alphabetic compat read_dictionary Backward x rules m ->
  forall input spans out t pre text post b k, trace input spans = Ok out -> In t out -> r_origin t = Some (RMatch pre text post b k) ->
  In (RMatch pre text post b k) rules /\ r_input t = text /\ exists dots, means x b text dots /\ capitals upper dots (r_output t).
Proof.
  intros B input spans out t pre text post b k E I Or. assert (S : is_sign t = false) by (unfold is_sign; rewrite Or; apply andb_false_r).
  apply in_split in I. destruct I as (a & b' & Eo).
  destruct (not_sign_says _ _ _ _ _ _ lower upper sort m B DR SR input spans out a t b' _ E Eo S Or eq_refl) as (Hr & text' & dots & u & [-> W] & [A1 A2] & I & _ & K).
  split; [exact Hr|]. split; [congruence|]. exists dots. rewrite A2 in K. auto.
Qed.
(** A rule with [=], forward: its text becomes the dots of its characters, one after the other. *)
Theorem C36_same_dots : main_built is_alphabetic compat read_dictionary Forward x rules m ->
  forall input spans out t r text, trace input spans = Ok out -> In t out -> r_origin t = Some r -> FaultSpec.same_as_characters r = Some text ->
  r_input t = text /\ spells (x_defs x) text (r_output t).
Proof.
  intros B input spans out t r text E I Or SA.
  destruct (C56_forward B input spans out t r E I Or) as (_ & W); [destruct r; try discriminate SA; reflexivity|].
  destruct r; try discriminate SA; cbn [FaultSpec.same_as_characters says] in *; try destruct dots; try discriminate SA; injection SA as <-; destruct W as [-> W]; auto.
Qed.
End Directions.
Print Assumptions C56_signs.
Print Assumptions C56_forward.
Print Assumptions C56_backward.
Print Assumptions C56_match_backward.
Print Assumptions C36_same_dots.

(** ** Examples *)
Definition ex_same : list rule := ex_letters ++ [RWord (lit "cab") Implicit K []; RMatch [PEmpty] (lit "ab") [PEmpty] (Explicit (b 7)) K].
Example C36_trace_example : ex_run Forward ex_same (lit "Cab ab") [] = Some [(lit "cab", bs [9; 1; 3]%N); (lit " ", b 0); (lit "ab", b 7)].
Proof. vm_compute. reflexivity. Qed.
Example C56_example_backward :
  ex_run Backward ex_same (bs [9; 1; 3]%N) [] = Some [(bs [9; 1; 3]%N, lit "cab")] /\
  map r_origin (ex_trace Backward ex_same (bs [9; 1; 3]%N) []) = [Some (RWord (lit "cab") Implicit K [])].
Proof. vm_compute. auto. Qed.
(** That every rule for a text is turned round in backward translation is false: the dots of
    a match rule are not read as its text, while its text is read as dots. *)
Theorem C56_rules_turned_round_refuted :
  ~ (forall rules input t, In t (ex_trace Backward rules input []) -> is_sign t = false -> forall r, r_origin t = Some r -> is_context r = false ->
       exists x text, says x r text (r_input t)).
Proof.
  intros H. specialize (H ex_same (lit "ab")).
  assert (E : ex_trace Backward ex_same (lit "ab") [] =
     [mk_resolved (lit "ab") (b 7) 2 2 0 PDefault Main [] (Some (RMatch [PEmpty] (lit "ab") [PEmpty] (Explicit (b 7)) K))]) by (vm_compute; reflexivity).
  rewrite E in H. destruct (H _ (or_introl eq_refl) eq_refl _ eq_refl eq_refl) as (x & text & -> & W). cbn in W. discriminate W.
Qed.
Print Assumptions C56_rules_turned_round_refuted.
