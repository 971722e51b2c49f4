(** C70: the match and context rules of the main pass are applied where they fit, and none
    that fits is passed over for a weaker rule. *)
From Coq Require Import Strings.String.
From Coq Require Import List.
From Verif Require Import Base BaseProofs RuleModel TranslationModel TranslationProofs TableModel RegexpModel
  RegexpSpec PatternModel OperandModel OperandProofs OperandProofs2 MatchSpec MatchProofs PropMatch TestSpec PropContext TrieModel TrieProofs PropTrie
  HyphenationModel HyphenationProofs LoopModel LoopProofs MultipassProofs PropMultipass VariableSpec VariableProofs PropPasses
  PrimaryProofs PrimaryTrace CompileModel CompileSpec
  CompileProofs MainTable ConstraintModel ConstraintSpec ConstraintProofs IndicatorModel IndicatorProofs
  CapsSpec CapsProofs CapsFacts EmphSpec EmphProofs MainSpec StepProofs TraceSpec MainPass StepFacts TraceProofs SetupSpec PropMain PropMainExamples
  PropVariables WordProofs PropWords.

(** A rule for [n] characters is not excluded at [p] by computer braille or by an
    uncontracted word, nor, backward, by the cell there being read as a digit. *)
Definition unhindered (d : direction) (lim : pos_flags) (p n : nat) : Prop :=
  flag_at k_comp6 lim p = false /\ (flag_at k_dont_contract lim p = true -> n <= 1) /\
  (d = Backward -> flag_at k_digit lim p = true -> n <> 1).
(** Behind [l] a piece begins that is the first one at its position. *)
Definition first_there (l : list resolved) : Prop := forall l' v, text_pieces l = l' ++ [v] -> 0 < r_length v.

Section Main.
Variable is_alphabetic : char -> bool.
Variable compat : bool.
Variable read_dictionary : str -> tres hyph.
Variable d : direction.
Variable x : context.
Variable rules : list rule.
Variable lower upper : char -> list char.
Variable sort : list event -> res (list event).
Variable m : main_table.
Hypothesis B : main_built is_alphabetic compat read_dictionary d x rules m.
Hypothesis DR : dictionaries_read read_dictionary.
Hypothesis SR : sort_rearranges sort.
Notation trace := (main_trace lower upper sort m).
Notation src := (rule_sources compat d x rules lower).

Lemma text_position a : position (text_pieces a) = position a.
Proof.
  induction a as [|t a IH]; [reflexivity|]. unfold text_pieces, position in *. cbn [filter map list_sum fold_right].
  destruct (is_sign t) eqn:E; cbn [negb map list_sum fold_right]; [|f_equal; exact IH].
  unfold is_sign in E. apply andb_prop in E. destruct E as [E _]. apply Nat.eqb_eq in E. rewrite E. exact IH.
Qed.
Lemma show_all_split lim ts : forall pos l1 l2, show_all upper d lim pos ts = l1 ++ l2 ->
  exists ts1 ts2, ts = ts1 ++ ts2 /\ show_all upper d lim pos ts1 = l1 /\ show_all upper d lim (pos + reached ts1) ts2 = l2.
Proof.
  induction ts as [|y ts IH]; intros pos l1 l2 E.
  - cbn [show_all] in E. symmetry in E. apply app_eq_nil in E. destruct E as [-> ->]. exists [], []. auto.
  - destruct l1 as [|u l1]; [exists [], (y :: ts); split; [reflexivity|]; split; [reflexivity|]; unfold reached; cbn; rewrite Nat.add_0_r; exact E|].
    cbn [show_all app] in E. injection E as <- E. destruct (IH _ _ _ E) as (ts1 & ts2 & -> & E1 & E2). exists (y :: ts1), ts2.
    split; [reflexivity|]. cbn [show_all]. rewrite E1. split; [reflexivity|]. rewrite reached_cons, Nat.add_assoc. exact E2.
Qed.
(** where the text is looked at after some pieces, and the choice made behind more pieces *)
Lemma looked_at_from input spans out a1 a2 t b : trace input spans = Ok out -> out = a1 ++ a2 ++ t :: b -> is_sign t = false ->
  exists sp lim ts1 ts2 h u, marked_spans x rules input spans sp /\ table_restricts is_alphabetic read_dictionary d x rules input sp lim /\
    derivation src d lim input (ts1 ++ ts2) /\ reached ts1 = position a1 /\ reached ts2 = position a2 /\
    text_pieces a1 = show_all upper d lim 0 ts1 /\ text_pieces (a1 ++ a2) = show_all upper d lim 0 (ts1 ++ ts2) /\ (first_there a2 -> ts2 <> [] -> MainSpec.moved ts2) /\
    best src d lim input (ts1 ++ ts2) (h, u) /\ t = shown upper d lim (position (a1 ++ a2)) (h, u).
Proof.
  intros E Eo NS. rewrite app_assoc in Eo.
  destruct (C06_every_choice_is_the_strongest _ _ _ _ _ _ lower upper sort m B DR SR input spans out _ t b E Eo NS)
    as (sp & lim & ts & h & u & MS & TR & D & SA & R & Hb & Et).
  pose proof SA as SAA. rewrite (text_pieces_app a1 a2) in SA. destruct (show_all_split _ _ _ _ _ SA) as (ts1 & ts2 & -> & E1 & E2).
  exists sp, lim, ts1, ts2, h, u. split; [exact MS|]. split; [exact TR|]. split; [exact D|].
  pose proof (show_all_position d upper lim ts1 0) as P1. rewrite E1, text_position in P1.
  pose proof (show_all_position d upper lim ts2 (0 + reached ts1)) as P2. rewrite E2, text_position in P2.
  split; [auto|]. split; [auto|]. split; [auto|]. split; [auto|]. split; [|auto].
  intros F NE. destruct (exists_last NE) as (l & y & ->). exists l, y. split; [reflexivity|].
  rewrite (show_all_app d upper lim l [y]) in E2. cbn [show_all] in E2. specialize (F _ _ (eq_sym E2)).
  destruct (shown_fields upper d lim (0 + reached ts1 + reached l) y) as (L & _). rewrite L in F. exact F.
Qed.
(** an offer found from there does not outweigh the choice *)
Lemma found_weighs input lim ts1 ts2 h u v : found src input ts1 v -> reached ts2 = r_offset v -> (ts2 <> [] -> MainSpec.moved ts2) ->
  unhindered d lim (reached (ts1 ++ ts2)) (r_length v) -> best src d lim input (ts1 ++ ts2) (h, u) ->
  (0 < r_length v \/ ~ In (subset_of v) (inserted (ts1 ++ ts2))) -> r_weight v <= r_weight u.
Proof.
  intros F R M (U1 & U2 & U3) Hb NW.
  pose proof (proj1 (conj (found_facts compat d x rules lower input ts1 v F) Coq.Init.Logic.I)) as FF. destruct FF as (_ & _ & r & _ & Or & Kr).
  assert (O : offers src input (ts1 ++ ts2) (with_offset v 0)).
  { destruct ts2 as [|y ts2].
    - rewrite app_nil_r. right. left. unfold reached in R. cbn in R. replace (with_offset v 0) with v; [auto|]. destruct v. cbn in R |- *. subst. reflexivity.
    - right. right. exists ts1, (y :: ts2), v. assert (MV : MainSpec.moved (y :: ts2)) by (apply M; discriminate).
      split; [reflexivity|]. split; [exact F|]. split; [|auto].
      rewrite <- R. destruct MV as (l & z & -> & MV). rewrite reached_app, reached_cons. lia. }
  assert (A : available src d lim input (ts1 ++ ts2) (with_offset v 0)).
  { unfold available. rewrite U1. split; [exact U2|]. right. split; [exact O|]. split.
    - unfold punc_ok. cbn [with_offset r_origin]. rewrite Or. destruct r; try reflexivity; destruct Kr; discriminate.
    - intros (w & D1 & D2 & _). cbn [with_offset r_length]. auto. }
  assert (N : new (ts1 ++ ts2) (with_offset v 0)).
  { destruct NW as [NW|NW]; [apply text_new; exact NW|exact NW]. }
  assert (G : forall w, r_weight (with_offset v 0) <= w -> r_weight v <= w) by (intros w Q; exact Q).
  destruct h; cbn [best] in Hb.
  - destruct Hb as (_ & _ & Q). apply G, Q; assumption.
  - destruct Hb as (_ & _ & Q & _). apply G, Q; assumption.
  - destruct Hb as (_ & Q & _). destruct (Q _ A N).
Qed.
Lemma compiled_match pre chars post dots k p : compiled compat read_dictionary d x rules p -> In (RMatch pre chars post dots k) rules ->
  exists t q, dots_of x dots chars = TOk t /\ match_insert (x_chars x) pre chars post t (RMatch pre chars post dots k) = TOk q.
Proof.
  intros (p0 & E & _) I. unfold primary_compile in E.
  destruct (compile_fold (compile_step1 compat d x) builder_new rules) as [b1| |]; try discriminate E. cbn [tbind] in E.
  assert (G : forall l b b', compile_fold (compile_step2 compat read_dictionary d x rules) b l = TOk b' -> In (RMatch pre chars post dots k) l ->
     exists t q, dots_of x dots chars = TOk t /\ match_insert (x_chars x) pre chars post t (RMatch pre chars post dots k) = TOk q).
  { induction l as [|q l IH]; intros b b' F J; [destruct J|]. cbn [compile_fold] in F.
    destruct (compile_step2 compat read_dictionary d x rules b q) as [b2| |] eqn:S2; try discriminate F. cbn [tbind] in F.
    destruct J as [->|J]; [|eapply IH; eauto]. cbn [compile_step2] in S2. destruct (dots_of x dots chars) as [t| |]; try discriminate S2. cbn [tbind] in S2.
    destruct (match_insert _ _ _ _ _ _) as [q| |] eqn:MI; try discriminate S2. eauto. }
  destruct (compile_fold (compile_step2 compat read_dictionary d x rules) b1 rules) as [b2| |] eqn:F; try discriminate E. eapply G; eauto.
Qed.
Lemma compiled_context test action k p : compiled compat read_dictionary d x rules p -> In (RContext test action k) rules ->
  exists q, context_insert x test action (RContext test action k) Main = TOk q.
Proof.
  intros (p0 & E & _) I. unfold primary_compile in E.
  destruct (compile_fold (compile_step1 compat d x) builder_new rules) as [b1| |]; try discriminate E. cbn [tbind] in E.
  assert (G : forall l b b', compile_fold (compile_step2 compat read_dictionary d x rules) b l = TOk b' -> In (RContext test action k) l ->
     exists q, context_insert x test action (RContext test action k) Main = TOk q).
  { induction l as [|q l IH]; intros b b' F J; [destruct J|]. cbn [compile_fold] in F.
    destruct (compile_step2 compat read_dictionary d x rules b q) as [b2| |] eqn:S2; try discriminate F. cbn [tbind] in F.
    destruct J as [->|J]; [|eapply IH; eauto]. cbn [compile_step2] in S2.
    destruct (context_insert _ _ _ _ _) as [q| |] eqn:MI; try discriminate S2. eauto. }
  destruct (compile_fold (compile_step2 compat read_dictionary d x rules) b1 rules) as [b2| |] eqn:F; try discriminate E. eapply G; eauto.
Qed.

(** The piece of a match rule is its text, without regard to case, standing where the rule's
    patterns fit; they are looked at from the place some earlier pieces [a1] led to. *)
Theorem C70_match_rules_fit : forall input spans out a t b pre chars post dots k,
  trace input spans = Ok out -> out = a ++ t :: b -> r_origin t = Some (RMatch pre chars post dots k) ->
  existsb nested_negation pre = false -> existsb nested_negation post = false ->
  exists a1 a2 s j, text_pieces a = a1 ++ a2 /\ position a1 + s = position a /\ r_length t = length chars /\ r_input t = chars /\
    rule_fits lower (x_chars x) (Nat.eqb (position a1) 0) (skipn (position a1) input) pre chars post s j /\ r_weight t = j.
Proof.
  intros input spans out a t b pre chars post dots k E Eo Er N1 N2.
  assert (NS : is_sign t = false) by (unfold is_sign; rewrite Er; cbn; apply andb_false_r).
  destruct (C06_every_choice_is_the_strongest _ _ _ _ _ _ lower upper sort m B DR SR input spans out a t b E Eo NS)
    as (sp & lim & ts & h & u & _ & _ & D & SA & R & Hb & Et).
  destruct (shown_fields upper d lim (position a) (h, u)) as (L1 & L2 & L3 & L4). rewrite <- Et in L1, L2, L3. cbn [snd] in L1, L2, L3.
  assert (LW : r_weight t = r_weight u) by (rewrite Et; destruct h; try reflexivity; unfold shown, cased; destruct d; try reflexivity;
    (destruct (flag_at k_uppercase lim (position a)); [reflexivity|]; destruct (flag_at k_titlecase lim (position a)); reflexivity)).
  rewrite Er in L3. symmetry in L3. pose proof (mb_rules _ _ _ _ _ _ _ B) as C.
  assert (F : exists ts1 ts2 v, ts = ts1 ++ ts2 /\ found src input ts1 v /\ reached ts2 = r_offset v /\ r_length v = r_length u /\ r_origin v = r_origin u /\ r_input v = r_input u /\ r_weight v = r_weight u).
  { destruct h; cbn [best] in Hb.
    - destruct Hb as ((H & _) & _). destruct (nocross_offer _ _ _ _ _ lower _ C _ _ _ H) as (_ & r & _ & Hr & N). rewrite L3 in Hr. injection Hr as <-. discriminate.
    - destruct Hb as (H & _). unfold available in H. destruct (flag_at k_comp6 lim (reached ts)).
      + destruct (comp6_offer _ _ _ _ _ lower _ C _ _ _ H) as (_ & r & _ & Hr & N). rewrite L3 in Hr. injection Hr as <-. discriminate.
      + destruct H as (_ & [H|(H & _)]).
        * destruct (digit_facts compat d x rules lower lim input _ _ H) as (_ & _ & r & _ & Hr & N). rewrite L3 in Hr. injection Hr as Hr. subst r. unfold text_rule in N. cbn in N. intuition discriminate.
        * destruct H as [H|[[H O]|(b1 & c1 & v & -> & H & _ & Hr & _ & ->)]].
          -- destruct (text_offer _ _ _ _ _ lower _ C _ _ _ H) as (_ & r & _ & Hr & N). rewrite L3 in Hr. injection Hr as Hr. subst r. unfold text_rule in N. cbn in N. intuition discriminate.
          -- exists ts, [], u. rewrite app_nil_r. split; [reflexivity|]. split; [exact H|]. split; [rewrite O; reflexivity|]. auto.
          -- exists b1, c1, v. split; [reflexivity|]. split; [exact H|]. split; [exact Hr|]. repeat split; reflexivity.
    - destruct Hb as ((c & r & _ & H) & _). apply (character_facts _ _ _ _ _ _ C) in H. destruct H as (_ & [H|(r' & _ & H & dots' & K)]); [congruence|].
      rewrite L3 in H. injection H as <-. destruct K as [[]|[]]. }
  destruct F as (ts1 & ts2 & v & -> & Fv & Rv & Lv & Ov & Iv & Wv).
  destruct Fv as [(q & Hq & Eq)|(e & Ve & (q & Hq & Eq))]; apply in_flat_map in Hq; destruct Hq as (r & Hr & Hq).
  - destruct (match_entry_rule _ _ _ Hq) as (_ & K & O). pose proof (cpat_find_origin _ _ _ _ _ _ Eq) as X. rewrite O, Ov, L3 in X. injection X as X; subst r.
    cbn [match_entries] in Hq. destruct (dots_of x dots chars) as [tt| |]; try (destruct Hq; fail).
    destruct (match_insert _ _ _ _ _ _) as [q'| |] eqn:MI; try (destruct Hq; fail). destruct Hq as [<-|[]].
    destruct (C49_match_rule_exact lower (x_chars x) pre chars post tt _ q' (Nat.eqb (reached ts1) 0) (left input ts1) N1 N2 MI) as (r & E1 & H).
    unfold match_find in E1. cbn [cpats_find] in E1. rewrite Eq in E1. cbn [bind] in E1. injection E1 as <-.
    destruct H as (s & j & RF & _ & _ & Q1 & Q2 & Q3 & _ & Q4 & _).
    exists (show_all upper d lim 0 ts1), (show_all upper d lim (0 + reached ts1) ts2), s, j.
    split; [rewrite <- SA; apply show_all_app|]. rewrite !show_all_position. rewrite <- R, reached_app.
    split; [lia|]. split; [congruence|]. split; [congruence|]. split; [exact RF|congruence].
  - apply context_entry in Hq. destruct Hq as (test' & action' & k' & -> & CI). destruct (rule_offer _ _ _ _ _ _ _ _ _ _ _ CI Eq) as (X & _).
    rewrite Ov, L3 in X. discriminate X.
Qed.
(** If a match rule fits where the text is looked at behind the pieces [a1], then, in one of
    the ways it fits, the piece that begins where its text begins has at least its weight -
    the number of characters that its patterns and its text take up. *)
Theorem C70_no_match_rule_is_missed : forall input spans out a1 pre chars post dots k s0 j0,
  trace input spans = Ok out -> In (RMatch pre chars post dots k) rules -> chars <> [] ->
  existsb nested_negation pre = false -> existsb nested_negation post = false ->
  rule_fits lower (x_chars x) (Nat.eqb (position a1) 0) (skipn (position a1) input) pre chars post s0 j0 ->
  exists s j, rule_fits lower (x_chars x) (Nat.eqb (position a1) 0) (skipn (position a1) input) pre chars post s j /\
    forall a2 t b, out = a1 ++ a2 ++ t :: b -> is_sign t = false -> position a2 = s -> first_there a2 ->
    exists sp lim, marked_spans x rules input spans sp /\ table_restricts is_alphabetic read_dictionary d x rules input sp lim /\
      (unhindered d lim (position (a1 ++ a2)) (length chars) -> j <= r_weight t).
Proof.
  intros input spans out a1 pre chars post dots k s0 j0 E I NC N1 N2 RF0.
  destruct (compiled_match _ _ _ _ _ _ (mb_rules _ _ _ _ _ _ _ B) I) as (tt & q & ED & MI).
  destruct (C49_match_rule_exact lower (x_chars x) pre chars post tt _ q (Nat.eqb (position a1) 0) (skipn (position a1) input) N1 N2 MI) as (l & E1 & H).
  unfold match_find in E1. cbn [cpats_find] in E1.
  destruct (cpat_find lower q env_new (Nat.eqb (position a1) 0) (skipn (position a1) input)) as [[v|]| |] eqn:Eq; try discriminate E1; cbn [bind] in E1; injection E1 as <-; [|destruct (H s0 j0 RF0)].
  destruct H as (s & j & RF & _ & _ & Q1 & Q2 & Q3 & _ & Q4 & _). exists s, j. split; [exact RF|].
  intros a2 t b Eo NS P F. destruct (looked_at_from input spans out a1 a2 t b E Eo NS) as (sp & lim & ts1 & ts2 & h & u & MS & TR & D & R1 & R2 & SA & SAA & MV & Hb & Et).
  exists sp, lim. split; [exact MS|]. split; [exact TR|]. intros U.
  assert (LW : r_weight t = r_weight u) by (rewrite Et; destruct h; try reflexivity; unfold shown, cased; destruct d; try reflexivity;
    (destruct (flag_at k_uppercase lim (position (a1 ++ a2))); [reflexivity|]; destruct (flag_at k_titlecase lim (position (a1 ++ a2))); reflexivity)).
  rewrite LW, <- Q4. eapply (found_weighs input lim ts1 ts2 h u v); [|congruence|auto| |exact Hb|left; rewrite Q2; destruct chars; [congruence|cbn; lia]].
  - left. exists q. unfold left. rewrite R1. split; [|exact Eq]. apply in_flat_map. exists (RMatch pre chars post dots k). split; [exact I|].
    cbn [match_entries]. rewrite ED, MI. left. reflexivity.
  - rewrite position_app in U. rewrite reached_app, R1, R2, Q2. exact U.
Qed.
(** The same for context rules, with the values the variables have behind the pieces [a1];
    a rule that inserts text may have done so already. *)
Lemma weighed test operand action o st p e at_start text before mid after t :
  parse_tests operand = Good test [] -> parts test before mid after ->
  context_insert x test action o st = TOk p -> cpat_find lower p e at_start text = Ok (Some t) ->
  exists s f j, fits x st e at_start text before mid after s f j /\ s <= f /\ r_offset t = s /\ r_length t = f - s /\ r_weight t = j.
Proof.
  intros P D C F. apply implicit_replace in D as AI. destruct D as (Fm & Fa & _).
  unfold context_insert in C. destruct (targets_of (x_swaps x) action) as [ts| |] eqn:Ets; try discriminate. cbn [tbind] in C.
  apply parse_tests_wf in P.
  assert (W : forallb wf_test (add_implicit_replace test) = true).
  { unfold add_implicit_replace. destruct (existsb _ _); [exact P|]. cbn [forallb wf_test]. rewrite P. reflexivity. }
  rewrite AI in C, W. destruct (re_of_instrs (stage_classes x st) _) as [r|] eqn:Er; [|discriminate]. injection C as <-.
  destruct (PatternProofs.bracket_found lower (stage_classes x st) (env_get e) at_start text before mid after r W Fm Fa Er)
    as (res & Ef & H).
  unfold cpat_find in F. cbn [cp_re cp_payload] in F. rewrite Ef in F. destruct res as [f|]; cbn [bind] in F; [|discriminate F].
  destruct H as (s & fi & j & T1 & T2 & T3 & H1 & H2 & H3 & ->).
  unfold RegexpCorrect.report in F. cbn [f_capture f_length f_offset translation_resolve] in F. unfold unresolved_resolve in F.
  cbn [u_output u_prec u_stage u_effects u_origin] in F. rewrite (PatternProofs.targets_output _ _ _ _ Ets) in F. cbn [bind] in F. injection F as <-.
  exists s, fi, j. split; [split; [exact T1|split; [exact T2|exact T3]]|]. split; [exact H1|]. split; [reflexivity|]. split; [|reflexivity].
  cbn [r_length]. rewrite firstn_length, skipn_length. unfold char, str in *. lia.
Qed.
Lemma sets_apply l : forall e0, exists e, env_apply_all e0 (sets l) = Ok e.
Proof.
  induction l as [|[v y] l IH]; intros e0; [eexists; reflexivity|]. cbn [sets map fst snd env_apply_all env_apply effect_new ef_slot ef_kind bind]. apply IH.
Qed.
Lemma inserted_step a s : In s (inserted a) -> exists y, In y a /\ subset_of (snd y) = s /\ r_length (snd y) = 0.
Proof.
  unfold inserted. assert (G : forall a l s, In s (fold_left insert_step a l) -> In s l \/ exists y, In y a /\ subset_of (snd y) = s /\ r_length (snd y) = 0).
  { clear. induction a as [|[h t] a IH]; intros l s J; cbn [fold_left] in J; [auto|]. apply IH in J. destruct J as [J|(y & J1 & J2)]; [|right; exists y; cbn; auto].
    destruct h; cbn [insert_step] in J; auto. destruct (Nat.eqb (r_length t) 0) eqn:E; [|destruct J]. apply Nat.eqb_eq in E.
    destruct J as [J|J]; auto. right. exists (ByRule, t). cbn. auto. }
  intros I. apply G in I. destruct I as [[]|I]; exact I.
Qed.
Lemma shown_weight lim pos y : r_weight (shown upper d lim pos y) = r_weight (snd y).
Proof.
  destruct y as [[| |] t]; try reflexivity; unfold shown, cased; destruct d; try reflexivity;
    (destruct (flag_at k_uppercase lim pos); [reflexivity|]; destruct (flag_at k_titlecase lim pos); reflexivity).
Qed.
Lemma show_all_In lim ts y : forall pos, In y ts -> exists v, In v (show_all upper d lim pos ts) /\ r_length v = r_length (snd y) /\ r_weight v = r_weight (snd y).
Proof.
  induction ts as [|z ts IH]; intros pos; [intros []|]. cbn [show_all]. intros [->|I].
  - exists (shown upper d lim pos y). split; [left; reflexivity|]. rewrite shown_weight. destruct (shown_fields upper d lim pos y) as (-> & _). auto.
  - destruct (IH (pos + r_length (snd z)) I) as (v & V1 & V2). exists v. split; [right; exact V1|exact V2].
Qed.
Theorem C70_no_context_rule_is_missed : forall input spans out a1 test action k operand before mid after,
  trace input spans = Ok out -> In (RContext test action k) rules ->
  parse_tests operand = Good test [] -> parts test before mid after ->
  (forall e, values_of (assignments_of (text_pieces a1)) e ->
    exists s f j, fits x Main e (Nat.eqb (position a1) 0) (skipn (position a1) input) before mid after s f j) ->
  exists e s f j, values_of (assignments_of (text_pieces a1)) e /\
    fits x Main e (Nat.eqb (position a1) 0) (skipn (position a1) input) before mid after s f j /\
    forall a2 t b, out = a1 ++ a2 ++ t :: b -> is_sign t = false -> position a2 = s -> first_there a2 ->
    exists sp lim, marked_spans x rules input spans sp /\ table_restricts is_alphabetic read_dictionary d x rules input sp lim /\
      (unhindered d lim (position (a1 ++ a2)) (f - s) ->
       j <= r_weight t \/ f = s /\ exists v, In v (text_pieces (a1 ++ a2)) /\ r_length v = 0 /\ r_weight v = j).
Proof.
  intros input spans out a1 test action k operand before mid after E I PT PA FE. pose proof (mb_rules _ _ _ _ _ _ _ B) as C.
  destruct (compiled_context _ _ _ _ C I) as (q & CI). destruct (sets_apply (assignments_of (text_pieces a1)) env_new) as (e & Ee).
  assert (VE : values_of (assignments_of (text_pieces a1)) e) by (eapply assigned_values; [reflexivity|exact Ee]).
  destruct (FE e VE) as (s0 & f0 & j0 & F0).
  destruct (rule_found lower x test operand action _ Main q e (Nat.eqb (position a1) 0) (skipn (position a1) input) before mid after PT PA CI) as (res & E1 & H').
  destruct res as [v|]; [|destruct (H' _ _ _ F0)]. clear H'.
  destruct (weighed test operand action _ Main q e _ _ before mid after v PT PA CI E1) as (s & f & j & Fi & SF & O1 & O2 & O3).
  exists e, s, f, j. split; [exact VE|]. split; [exact Fi|]. intros a2 t b Eo NS P F.
  destruct (looked_at_from input spans out a1 a2 t b E Eo NS) as (sp & lim & ts1 & ts2 & h & u & MS & TR & D & R1 & R2 & SA & SAA & MV & Hb & Et).
  exists sp, lim. split; [exact MS|]. split; [exact TR|]. intros U.
  assert (FD : found src input ts1 v).
  { right. exists e. split.
    - unfold variables. rewrite (derivation_own compat read_dictionary d x rules lower _ C lim input ts1); [|eapply derivation_prefix, D].
      rewrite <- (shown_assignments d upper lim ts1 0), <- SA. exact Ee.
    - exists q. unfold left. rewrite R1. split; [|exact E1]. apply in_flat_map. exists (RContext test action k). split; [exact I|]. cbn [context_entries]. rewrite CI. left. reflexivity. }
  assert (LW : r_weight t = r_weight u) by (rewrite Et; apply shown_weight).
  assert (subset_dec : forall p q : subset, {p = q} + {p <> q}).
  { intros p0 q0. destruct (subset_eqb p0 q0) eqn:EE; [left; apply subset_eqb_eq, EE|right; intros Z; apply subset_eqb_eq in Z; congruence]. }
  assert (UH : unhindered d lim (reached (ts1 ++ ts2)) (r_length v)) by (rewrite position_app in U; rewrite reached_app, R1, R2, O2; exact U).
  destruct (Nat.eq_dec f s) as [EQ|NE].
  - destruct (in_dec subset_dec (subset_of v) (inserted (ts1 ++ ts2))) as [IN|NI].
    + right. split; [exact EQ|]. apply inserted_step in IN. destruct IN as (y & Iy & Ey & Ly).
      unfold subset_of in Ey. injection Ey. intros EW _ _ _.
      destruct (show_all_In lim (ts1 ++ ts2) y 0 Iy) as (w & W1 & W2 & W3). exists w. rewrite SAA. split; [exact W1|]. split; congruence.
    + left. rewrite LW, <- O3. eapply (found_weighs input lim ts1 ts2 h u v FD); [congruence|auto|exact UH|exact Hb|right; exact NI].
  - left. rewrite LW, <- O3. eapply (found_weighs input lim ts1 ts2 h u v FD); [congruence|auto|exact UH|exact Hb|left; lia].
Qed.
End Main.
Print Assumptions C70_match_rules_fit.
Print Assumptions C70_no_match_rule_is_missed.
Print Assumptions C70_no_context_rule_is_missed.


(** ** Examples *)
(** [match a b - 4]: the text looked at from before "a" offers the rule for "b" behind it. *)
Definition ex_behind : rule := RMatch [PCharacters (lit "a")] (lit "b") [PEmpty] (Explicit (b 40)) K.
Example C70_example_match : ex_run Forward (ex_letters ++ [ex_behind]) (lit "baB") [] = Some [(lit "b", b 3); (lit "a", b 1); (lit "b", b 40)].
Proof. vm_compute. reflexivity. Qed.
Example C70_example_fits : forall ctx, existsb nested_negation [PCharacters (lit "a")] = false /\ existsb nested_negation [PEmpty] = false /\
  rule_fits ex_lower ctx false (lit "ab") [PCharacters (lit "a")] (lit "b") [PEmpty] 1 2.
Proof.
  intros ctx. split; [reflexivity|]. split; [reflexivity|]. split.
  - exists 1. cbn. split; [split; [reflexivity|]|split; [reflexivity|exact Coq.Init.Logic.I]]. intros [|[|k]] c H; cbn in H; try discriminate H; exact H.
  - split.
    + intros [|[|k]] c H; cbn in H; try discriminate H. injection H as <-. exists 98%N. auto.
    + exists 2. cbn. split; split; auto.
Qed.
(** the first piece at its position: not so behind an insertion there, where the offer made
    by the piece before is not considered again *)
Example C70_example_first : first_there [resolved_new (lit "a") (b 1) 1 Main None] /\ ~ first_there [resolved_new [] (b 1) 0 Main None].
Proof.
  split.
  - intros l v E. destruct l as [|u [|u' l]]; try discriminate E. injection E as <-. cbn. lia.
  - intros F. specialize (F [] _ eq_refl). cbn in F. lia.
Qed.
(** [context "a"["b"] @4] *)
Definition ex_between_ab : rule := RContext [TString (lit "a"); TReplace [TString (lit "b")]] [ActDots (b 40)] K.
Example C70_example_context : parse_tests (lit """a""[""b""]") = Good [TString (lit "a"); TReplace [TString (lit "b")]] [] /\
  parts [TString (lit "a"); TReplace [TString (lit "b")]] [TString (lit "a")] [TString (lit "b")] [] /\
  ex_run Forward (ex_letters ++ [ex_between_ab]) (lit "babb") [] = Some [(lit "b", b 3); (lit "a", b 1); (lit "b", b 40); (lit "b", b 3)].
Proof. split; [vm_compute; reflexivity|]. split; [repeat split; try reflexivity; left; reflexivity|]. vm_compute. reflexivity. Qed.
(** Only the first piece at a position takes account of what was found from further back:
    with a rule that inserts text before "bcd", the rule for "b" behind "a" is lost, although
    no rule of its weight is applied instead. *)
Theorem C70_offers_are_kept_behind_insertions_refuted :
  exists table r input, In r table /\ r = ex_between_ab /\
    ex_run Forward table input [] = Some [(lit "a", b 1); ([], b 41); (lit "b", b 3); (lit "c", b 9); (lit "d", b 25)].
Proof.
  exists (ex_letters ++ [ex_between_ab; RContext [TReplace []; TString (lit "bcd")] [ActDots (b 41)] K]), ex_between_ab, (lit "abcd").
  split; [apply in_or_app; right; left; reflexivity|]. split; [reflexivity|]. vm_compute. reflexivity.
Qed.
