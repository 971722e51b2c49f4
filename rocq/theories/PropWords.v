(** C50, C51: where the rules with a text are applied (forward). *)
From Coq Require Import Permutation String.
From Verif Require Import Base BaseProofs RuleModel TranslationModel TranslationProofs TableModel RegexpModel
  RegexpSpec PatternModel MatchProofs TrieModel TrieProofs PropTrie
  HyphenationModel HyphenationProofs LoopModel LoopProofs MultipassProofs PrimaryProofs PrimaryTrace CompileModel CompileSpec
  CompileProofs MainTable ConstraintModel ConstraintSpec ConstraintProofs IndicatorModel IndicatorProofs
  CapsSpec CapsProofs CapsFacts EmphSpec EmphProofs MainSpec StepProofs TraceSpec MainPass StepFacts TraceProofs
  SetupSpec SetupProofs PropMain WordSpec WordProofs PropMainExamples.

Section Words.
Variable is_alphabetic : char -> bool.
Variable compat : bool.
Variable read_dictionary : str -> tres hyph.
Variable x : context.
Variable rules : list rule.
Variable lower upper : char -> list char.
Variable sort : list event -> res (list event).
Variable m : main_table.
Hypothesis B : main_built is_alphabetic compat read_dictionary Forward x rules m.
Hypothesis DR : dictionaries_read read_dictionary.
Hypothesis SR : sort_rearranges sort.
Notation trace := (main_trace lower upper sort m).

(** ** C51 *)
Lemma in_edge ks o : neighbour_in (x_chars x) ks o -> ks = [CSpace; CPunctuation] -> edge x o.
Proof.
  intros H ->. unfold edge, of_class. destruct o as [c|]; [|auto]. destruct H as (k & [<-|[<-|[]]] & H); eauto.
Qed.
Lemma in_one k o : neighbour_in (x_chars x) [k] o -> k <> CSpace -> of_class x k o.
Proof.
  intros H N. unfold of_class. destruct o as [c|]; [destruct H as (k' & [<-|[]] & H); eauto|destruct H as [H|[]]; congruence].
Qed.
Lemma in_lsp o : neighbour_in (x_chars x) [CLetter; CSpace; CPunctuation] o -> a_letter_at x o \/ edge x o.
Proof.
  unfold edge, a_letter_at, of_class. destruct o as [c|]; [|auto]. intros (k & [<-|[<-|[<-|[]]]] & H); eauto 6.
Qed.
(** A piece made by such a rule stands for the text of the rule (but for case), and the
    characters around it are as the opcode and the class conditions demand. *)
Theorem C51_words_in_their_place : forall input spans out a t b r text,
  trace input spans = Ok out -> out = a ++ t :: b -> r_origin t = Some r -> rule_text r = Some text ->
  exists stretch rest before,
    skipn (position a) input = stretch ++ rest /\ map lower stretch = map (fun c => [c]) text /\
    r_length t = length text /\ r_input t = text /\
    seen_before lower input (position a) before /\
    opcode_place x r before (hd_error rest) /\ classes_around x r before (hd_error rest).
Proof.
  intros input spans out a t b r text E Eo Or RT.
  destruct (word_piece _ _ _ _ _ lower upper sort m B DR SR _ _ _ _ _ _ _ _ E Eo Or RT) as (full & e & prev & IF & Hr & IE & SB & (rest & TM & PRE & POST) & ET).
  assert (FR : sought Forward e = text).
  { revert IE RT. clear. unfold word_entries. destruct r; cbn [word_insertions rule_text]; try discriminate;
      try (destruct (dots_of x _ _) as [tt| |]; cbn [tbind]; try (intros []; fail)); cbn [In];
      try (destruct (forallb _ _); cbn [In]; try (intros []; fail));
      intros H [= <-]; repeat (destruct H as [<-|H]; [reflexivity|]); destruct H. }
  rewrite FR in TM.
  assert (ST : exists stretch, skipn (position a) input = stretch ++ rest /\ map lower stretch = map (fun c => [c]) text).
  { clear - TM. induction TM as [inp|y from c inp rest H TM (s & -> & IH)]; [exists []; auto|]. exists (c :: s). cbn [map app]. rewrite H, IH. auto. }
  destruct ST as (stretch & ES & EL). exists stretch, rest, prev. split; [exact ES|]. split; [exact EL|].
  assert (LT : r_length t = length text /\ r_input t = text).
  { rewrite ET. unfold offer. cbn [resolved_new r_length r_input]. rewrite FR. auto. }
  split; [apply LT|]. split; [apply LT|]. split; [exact SB|]. clear - IE PRE POST RT.
  assert (CC : forall w, pre_conditions e = pre_conditions e -> (forall kc, In kc (class_constraints x w) -> In kc (i_constraints e)) ->
    forall wc, In wc w -> match wc with WBefore name => known x name -> neighbour x name (hd_error rest)
                                      | WAfter name => known x name -> neighbour x name prev end).
  { intros w _ SUB wc Hw. assert (NB : forall k o, neighbour_in (x_chars x) [k] o -> of_class x k o \/ o = None /\ k = CSpace).
    { intros k o. destruct o as [c|]; [intros (k' & [<-|[]] & H); left; exists c; auto|intros [<-|[]]; auto]. }
    destruct wc as [name|name]; intros KN; apply NB.
    - apply POST. unfold post_conditions. apply in_or_app. right. apply in_flat_map. exists (KEnd (class_from name)). split; [|left; reflexivity].
      apply SUB. unfold class_constraints. apply in_flat_map. exists (WBefore name). split; [exact Hw|]. unfold known in KN. destruct (cls_get _ _); [left; reflexivity|destruct (KN eq_refl)].
    - apply PRE. unfold pre_conditions. apply in_or_app. left. apply in_flat_map. exists (KStart (class_from name)). split; [|left; reflexivity].
      apply SUB. unfold class_constraints. apply in_flat_map. exists (WAfter name). split; [exact Hw|]. unfold known in KN. destruct (cls_get _ _); [left; reflexivity|destruct (KN eq_refl)]. }
  assert (BF : forall ks, i_before e = Some (TrStart ks) -> neighbour_in (x_chars x) ks prev).
  { intros ks H. apply PRE. unfold pre_conditions. rewrite H. apply in_or_app. right. left. reflexivity. }
  assert (AF : forall ks, i_after e = Some (TrEnd ks) -> neighbour_in (x_chars x) ks (hd_error rest)).
  { intros ks H. apply POST. unfold post_conditions. rewrite H. apply in_or_app. left. left. reflexivity. }
  clear PRE POST. specialize (fun w => CC w eq_refl).
  assert (E1 : forall o, neighbour_in (x_chars x) [CSpace; CPunctuation] o -> edge x o) by (intros o H; eapply in_edge; [exact H|reflexivity]).
  assert (E2 : forall o, neighbour_in (x_chars x) [CLetter] o -> a_letter_at x o) by (intros o H; apply in_one; [exact H|discriminate]).
  assert (E3 : forall o, neighbour_in (x_chars x) [CDigit] o -> a_digit_at x o) by (intros o H; apply in_one; [exact H|discriminate]).
  unfold classes_around. revert IE RT BF AF CC.
  unfold word_entries. destruct r; cbn [word_insertions rule_text opcode_place with_classes]; try discriminate;
      try (destruct (dots_of x _ _) as [tt| |]; cbn [tbind]; try (intros []; fail)); cbn [In];
      try (destruct (forallb _ _); cbn [In]; try (intros []; fail));
      intros H _; repeat (destruct H as [<-|H]; [|]); try (destruct H; fail); cbn [ins i_before i_after i_constraints];
      intros BF AF CC; (split; [|try (intros w []; fail); exact (CC _ (fun _ H => H))]);
      try exact Coq.Init.Logic.I;
      try specialize (BF _ eq_refl); try specialize (AF _ eq_refl); try (apply in_lsp in BF; [idtac]); try (apply in_lsp in AF; [idtac]); auto.
Qed.

(** ** No word is missed *)
(** the restrictions of a position: inside computer braille, numbers and uncontracted words longer texts are
    not looked for, prepunc and postpunc have their places, and a nocross rule does not
    reach over a hyphenation point *)
Definition not_restricted (lim : pos_flags) (p : nat) (r : rule) (text : str) : Prop :=
  if is_nocross r then forall q, p <= q -> S q < p + length text -> flag_at k_break lim q = false
  else flag_at k_comp6 lim p = false /\ (flag_at k_dont_contract lim p = true -> length text <= 1) /\
       forall r', In r' rules -> rule_text r' = Some text ->
         match r' with RPrepunc _ _ _ => flag_at k_prepunc lim p = true | RPostpunc _ _ _ => flag_at k_postpunc lim p = true | _ => True end.
Lemma inserted_empty a i o w n : In (i, o, w, n) (inserted a) -> exists u, subset_of u = (i, o, w, n) /\ r_length u = 0.
Proof.
  unfold inserted. assert (G : forall a l, (forall s, In s l -> exists u, subset_of u = s /\ r_length u = 0) ->
    forall s, In s (fold_left insert_step a l) -> exists u, subset_of u = s /\ r_length u = 0).
  { clear. induction a as [|[h t] a IH]; intros l H s I; cbn [fold_left] in I; [auto|]. eapply IH, I. intros s0 J. destruct h; cbn [insert_step] in J; auto.
    destruct (Nat.eqb (r_length t) 0) eqn:E; [|destruct J]. destruct J as [<-|J]; auto. apply Nat.eqb_eq in E. eauto. }
  intros I. eapply G, I. intros s [].
Qed.
Lemma text_new a u : 1 <= r_length u -> new a u.
Proof.
  intros L I. unfold subset_of in I. apply inserted_empty in I. destruct I as (v & E & Z). unfold subset_of in E. injection E. lia.
Qed.
Lemma rival_applies e e' inp prev : rivals (x_chars x) Forward e e' -> applies lower (x_chars x) Forward e inp prev -> applies lower (x_chars x) Forward e' inp prev.
Proof.
  intros (S & P & Q) (rest & TM & A1 & A2). exists rest. rewrite <- S. split; [exact TM|]. clear - P Q A1 A2. split.
  - clear - P A1. intros ks I. induction P as [|k k' l l' Hk P IH]; [destruct I|]. destruct I as [<-|I]; [apply Hk, A1; left; reflexivity|]. apply IH; [intros; apply A1; right; assumption|exact I].
  - clear - Q A2. intros ks I. induction Q as [|k k' l l' Hk P IH]; [destruct I|]. destruct I as [<-|I]; [apply Hk, A2; left; reflexivity|]. apply IH; [intros; apply A2; right; assumption|exact I].
Qed.
Lemma stretch_matches text : forall stretch rest, map lower stretch = map (fun c => [c]) text -> text_matches lower text (stretch ++ rest) rest.
Proof.
  induction text as [|y text IH]; intros [|c stretch] rest E; try discriminate E; [constructor|]. cbn [map] in E. injection E as E1 E2. cbn [app]. constructor; auto.
Qed.
Lemma entry_text r e text : In e (word_entries x r) -> rule_text r = Some text -> i_from e = text.
Proof.
  unfold word_entries. destruct r; cbn [word_insertions rule_text]; try discriminate;
      try (destruct (dots_of x _ _) as [tt| |]; cbn [tbind]; try (intros []; fail)); cbn [In];
      try (destruct (forallb _ _); cbn [In]; try (intros []; fail));
      intros H [= <-]; repeat (destruct H as [<-|H]; [reflexivity|]); destruct H.
Qed.
Lemma entry_has_text r e : In e (word_entries x r) -> exists text, rule_text r = Some text.
Proof. unfold word_entries. destruct r; cbn [word_insertions rule_text]; try (intros []; fail); eauto. Qed.
(** the offer of the rule in force for the text of [r] *)
Lemma offered r text inp prev : In r rules -> rule_text r = Some text -> text <> [] -> counts x r ->
  (exists stretch rest, inp = stretch ++ rest /\ map lower stretch = map (fun c => [c]) text /\ opcode_place x r prev (hd_error rest) /\ classes_around x r prev (hd_error rest)) ->
  exists u r', rule_offers compat Forward x lower (entries_for x rules r) inp prev u /\ length text <= r_weight u /\ r_length u = length text /\
    In r' rules /\ r_origin u = Some r' /\ rule_text r' = Some text.
Proof.
  intros I RT NT CT (stretch & rest & -> & EL & OP & CA).
  destruct (compiled_words compat read_dictionary x rules _ r text (mb_rules _ _ _ _ _ _ _ B) I RT) as (l & WI).
  destruct (place_entry x r text l prev (hd_error rest) RT WI CT OP CA) as (e & Ie & Fe & P1 & P2).
  assert (IE : In e (entries_for x rules r)).
  { unfold entries_for. destruct (is_nocross r) eqn:N.
    - apply in_flat_map. exists r. rewrite N. auto.
    - unfold main_entries. apply in_app_iff. right. apply in_flat_map. exists r. split; [exact I|]. unfold main_entries_of. rewrite N. apply in_app_iff. right. apply in_app_iff. right. exact Ie. }
  assert (WO : forall b, In b (entries_for x rules r) -> well_oriented b).
  { intros b0 Ib. unfold entries_for in Ib. destruct (is_nocross r); [apply nocross_oriented in Ib|apply main_oriented in Ib]; apply Ib. }
  destruct (some_in_force compat (x_chars x) Forward _ e WO IE) as (full & e' & IF & Ie' & R).
  assert (AP : applies lower (x_chars x) Forward e (stretch ++ rest) prev).
  { exists rest. cbn [sought]. rewrite Fe. split; [apply stretch_matches, EL|]. auto. }
  assert (Q : exists r', In r' rules /\ i_origin e' = Some r' /\ rule_text r' = Some text).
  { assert (X : exists r', In r' rules /\ i_origin e' = Some r' /\ In e' (word_entries x r')).
    { unfold entries_for in Ie'. destruct (is_nocross r).
      - destruct (proj2 (nocross_oriented _ _ _ Ie')) as (r' & _ & O & _). destruct (nocross_entry x rules _ _ Ie' O) as (X1 & _ & X2). eauto.
      - destruct (main_entry_rule _ _ _ _ Ie') as (r' & _ & O & _). destruct (main_entry x rules _ _ Ie' O) as (X1 & _ & X2). eauto. }
    destruct X as (r' & X1 & X2 & X3). exists r'. split; [exact X1|]. split; [exact X2|].
    destruct (entry_has_text _ _ X3) as (t' & T'). rewrite T'. f_equal. rewrite <- (entry_text _ _ _ X3 T'). destruct R as (R & _). cbn [sought] in R. congruence. }
  destruct Q as (r' & Q1 & Q2 & Q3). assert (SE : sought Forward e' = text) by (destruct R as (R & _); rewrite <- R; exact Fe).
  exists (offer (x_chars x) Forward full e'), r'. split; [exists full, e'; split; [exact IF|]; split; [eapply rival_applies; eauto|reflexivity]|].
  split; [|split; [unfold offer; cbn [resolved_new r_length]; rewrite SE; reflexivity|split; [exact Q1|split; [exact Q2|exact Q3]]]].
  unfold offer. cbn [resolved_new r_weight]. rewrite <- SE. destruct full; [|reflexivity]. unfold ins_path. rewrite !app_length, !map_length. cbn [sought ins_from]. unfold char, str in *. lia.
Qed.
(** Where, at the beginning of a piece, the text of a rule stands in a place the opcode and the class
    conditions permit, the piece is made by a rule whose weight - the number of characters
    and of conditions - is no less than the length of that text: no word is translated
    letter by letter, or by shorter rules, although there is a rule for it. *)
Theorem C51_no_word_is_missed : forall input spans out a t b r text stretch rest,
  trace input spans = Ok out -> out = a ++ t :: b -> is_sign t = false ->
  In r rules -> rule_text r = Some text -> text <> [] -> counts x r ->
  skipn (position a) input = stretch ++ rest -> map lower stretch = map (fun c => [c]) text ->
  (forall before, seen_before lower input (position a) before -> opcode_place x r before (hd_error rest) /\ classes_around x r before (hd_error rest)) ->
  exists sp lim, marked_spans x rules input spans sp /\ table_restricts is_alphabetic read_dictionary Forward x rules input sp lim /\
    (not_restricted lim (position a) r text ->
     length text <= r_weight t /\ exists r', In r' rules /\ r_origin t = Some r' /\ (rule_text r' <> None \/ is_comp6 r' = true \/ is_match r' = true \/ is_context r' = true)).
Proof.
  intros input spans out a t b r text stretch rest E Eo NS I RT NT CT ES EL PL.
  pose proof (seen_last _ _ _ _ _ lower upper sort m B DR SR _ _ _ _ _ _ E Eo) as SL.
  destruct (pass_traced _ _ _ _ _ _ lower upper sort m B DR input spans out SR E) as (sp & em & caps & ind & lim & ts & T).
  destruct (piece _ _ _ _ _ _ _ _ _ _ B _ _ _ _ _ _ _ _ _ T a t b Eo) as [(S & _)|(_ & ts1 & y & ts2 & Ets & R & H & Et & W)]; [congruence|].
  destruct (step_at _ _ _ _ _ _ _ _ _ _ B _ _ _ _ _ _ _ _ _ T _ _ _ Ets) as (_ & IL & _).
  exists sp, lim. split; [eapply marked_enriched, T; eauto|]. split; [eapply restricted; [exact B|exact T]|]. intros NR.
  assert (PV : previous ts1 = last_char (flat_map r_input (text_pieces a))).
  { unfold previous. f_equal. rewrite <- W. clear. generalize 0 as pos. induction ts1 as [|z l IH]; intros pos; [reflexivity|].
    cbn [flat_map show_all]. rewrite <- IH. destruct (shown_fields upper Forward lim pos z) as (_ & -> & _). reflexivity. }
  pose proof (mb_rules _ _ _ _ _ _ _ B) as CM.
  destruct (offered r text (skipn (reached ts1) input) (previous ts1) I RT NT CT) as (u & r' & RO & WU & LU & I' & O' & RT').
  { exists stretch, rest. rewrite R, PV. split; [exact ES|]. split; [exact EL|]. apply PL, SL. }
  assert (L1 : 1 <= r_length u) by (rewrite LU; destruct text; [congruence|cbn; lia]).
  assert (AV : nocross_available (rule_sources compat Forward x rules lower) lim input ts1 u \/
     available (rule_sources compat Forward x rules lower) Forward lim input ts1 u /\ new ts1 u).
  { unfold not_restricted, entries_for in *. destruct (is_nocross r) eqn:N.
    - left. split; [exact RO|]. rewrite R, LU. exact NR.
    - right. split; [|apply text_new, L1]. destruct NR as (N1 & N2 & N3). unfold available. rewrite R, N1. split; [rewrite LU; exact N2|]. right.
      split; [left; exact RO|]. split; [|intros (v & X & _); discriminate X]. unfold punc_ok. rewrite O'. specialize (N3 r' I' RT'). destruct r'; auto. }
  assert (HW : forall h v, y = (h, v) -> length text <= r_weight v /\ exists r0, In r0 rules /\ r_origin v = Some r0 /\
     (rule_text r0 <> None \/ is_comp6 r0 = true \/ is_match r0 = true \/ is_context r0 = true)).
  { intros h v ->. destruct h; cbn [best] in H.
    - destruct H as (H & H1 & H2). split; [destruct AV as [AV|[AV NW]]; [specialize (H1 u AV)|specialize (H2 u AV NW)]; lia|].
      destruct H as (H & _). cbn [by_nocross rule_sources] in H. destruct (nocross_offer compat read_dictionary Forward x rules lower _ CM _ _ _ H) as (_ & r0 & Hr0 & O0 & N0).
      exists r0. split; [exact Hr0|]. split; [exact O0|]. left. destruct H as (full & e & IF & _ & ->). apply in_force_in in IF.
      destruct (nocross_entry x rules _ _ IF O0) as (_ & _ & X). destruct (entry_has_text _ _ X) as (t0 & ->). discriminate.
    - destruct H as (H & _ & H1 & H2). split; [destruct AV as [AV|[AV NW]]; [specialize (H2 u AV)|specialize (H1 u AV NW)]; lia|].
      unfold available in H. destruct (flag_at k_comp6 lim (reached ts1)).
      { destruct (comp6_offer compat read_dictionary Forward x rules lower _ CM _ _ _ H) as (_ & r0 & Hr0 & O0 & N0). eauto 6. }
      destruct H as (_ & [(X & _)|(H & _)]); [discriminate X|].
      assert (FF : forall a0 v0, found (rule_sources compat Forward x rules lower) input a0 v0 -> exists r0, In r0 rules /\ r_origin v0 = Some r0 /\ (is_match r0 = true \/ is_context r0 = true)).
      { intros a0 v0 F. apply (found_facts compat Forward x rules lower) in F. destruct F as (_ & _ & r0 & Hr0 & O0 & P0). exists r0. split; [exact Hr0|]. split; [exact O0|exact P0]. }
      destruct H as [H|[(H & _)|(b0 & c0 & v0 & _ & F & _ & _ & _ & ->)]].
      + destruct H as (full & e & IF & _ & ->). apply in_force_in in IF. destruct (main_entry_rule _ _ _ _ IF) as (r0 & Hr0 & O0 & _).
        exists r0. split; [exact Hr0|]. split; [exact O0|]. left. destruct (main_entry x rules _ _ IF O0) as (_ & _ & X). destruct (entry_has_text _ _ X) as (t0 & ->). discriminate.
      + destruct (FF _ _ H) as (r0 & Hr0 & O0 & P0). exists r0. tauto.
      + destruct (FF _ _ F) as (r0 & Hr0 & O0 & P0). exists r0. cbn [with_offset r_origin]. tauto.
    - exfalso. destruct H as (_ & H1 & H2). destruct AV as [AV|[AV NW]]; [exact (H2 u AV)|exact (H1 u AV NW)]. }
  destruct y as [h v]. destruct (HW h v eq_refl) as (W1 & W2). rewrite Et. destruct h; exact (conj W1 W2).
Qed.
(** and if it is the only rule whose text is there, it is the rule that is applied *)
Theorem C51_the_only_rule_is_applied : forall input spans out a t b r text stretch rest,
  trace input spans = Ok out -> out = a ++ t :: b -> is_sign t = false ->
  In r rules -> rule_text r = Some text -> text <> [] -> counts x r ->
  skipn (position a) input = stretch ++ rest -> map lower stretch = map (fun c => [c]) text ->
  (forall before, seen_before lower input (position a) before -> opcode_place x r before (hd_error rest) /\ classes_around x r before (hd_error rest)) ->
  (forall r', In r' rules -> is_match r' = false /\ is_context r' = false /\ is_comp6 r' = false) ->
  (forall r' text' stretch' rest', In r' rules -> rule_text r' = Some text' ->
     skipn (position a) input = stretch' ++ rest' -> map lower stretch' = map (fun c => [c]) text' -> r' = r) ->
  exists sp lim, marked_spans x rules input spans sp /\ table_restricts is_alphabetic read_dictionary Forward x rules input sp lim /\
    (not_restricted lim (position a) r text -> r_origin t = Some r /\ r_input t = text).
Proof.
  intros input spans out a t b r text stretch rest E Eo NS I RT NT CT ES EL PL NO ONLY.
  destruct (C51_no_word_is_missed input spans out a t b r text stretch rest E Eo NS I RT NT CT ES EL PL) as (sp & lim & MS & TR & Q).
  exists sp, lim. split; [exact MS|]. split; [exact TR|]. intros NR. destruct (Q NR) as (_ & r' & I' & O' & K). destruct (NO r' I') as (N1 & N2 & N3).
  destruct (rule_text r') as [text'|] eqn:RT'; [|destruct K as [K|[K|[K|K]]]; congruence].
  destruct (C51_words_in_their_place input spans out a t b r' text' E Eo O' RT') as (s' & rest' & before & E' & EL' & _ & IN & _).
  assert (r' = r) as -> by (eapply ONLY; eauto). rewrite RT in RT'. injection RT' as <-. auto.
Qed.

(** ** C50 *)
(** Of a prepunc and a postpunc rule for the same characters only one is ever applied. *)
Theorem C50_prepunc_or_postpunc : forall text dots1 dots2 k1 k2 input1 spans1 out1 t1 input2 spans2 out2 t2,
  trace input1 spans1 = Ok out1 -> In t1 out1 -> r_origin t1 = Some (RPrepunc text dots1 k1) ->
  trace input2 spans2 = Ok out2 -> In t2 out2 -> r_origin t2 = Some (RPostpunc text dots2 k2) ->
  nocross k1 = nocross k2 -> False.
Proof.
  intros text dots1 dots2 k1 k2 input1 spans1 out1 t1 input2 spans2 out2 t2 E1 I1 O1 E2 I2 O2 K.
  apply in_split in I1. destruct I1 as (a1 & b1 & Eo1). apply in_split in I2. destruct I2 as (a2 & b2 & Eo2).
  destruct (word_piece _ _ _ _ _ lower upper sort m B DR SR _ _ _ _ _ _ _ text E1 Eo1 O1 eq_refl) as (f1 & e1 & p1 & F1 & _ & IE1 & _).
  destruct (word_piece _ _ _ _ _ lower upper sort m B DR SR _ _ _ _ _ _ _ text E2 Eo2 O2 eq_refl) as (f2 & e2 & p2 & F2 & _ & IE2 & _).
  assert (EE : entries_for x rules (RPrepunc text dots1 k1) = entries_for x rules (RPostpunc text dots2 k2)) by (unfold entries_for; cbn [is_nocross]; rewrite K; reflexivity).
  rewrite EE in F1. unfold word_entries in IE1, IE2. cbn [word_insertions] in IE1, IE2.
  destruct (forallb (cls_has (x_chars x) CPunctuation) text); [|destruct IE1]. destruct IE1 as [<-|[]], IE2 as [<-|[]].
  assert (R : rivals (x_chars x) Forward (ins (RPrepunc text dots1 k1) text dots1 None None []) (ins (RPostpunc text dots2 k2) text dots2 None None [])).
  { split; [reflexivity|]. split; constructor. }
  pose proof (in_force_unique _ _ _ _ _ _ _ _ F1 F2 R) as Q. discriminate Q.
Qed.
End Words.
Print Assumptions C51_words_in_their_place.
Print Assumptions C51_no_word_is_missed.
Print Assumptions C51_the_only_rule_is_applied.
Print Assumptions C50_prepunc_or_postpunc.

(** ** Examples *)
Definition ex_words : list rule := ex_letters ++
  [RWord (lit "ab") (Explicit (b 40)) K []; RBegword (lit "ab") (Explicit (b 41)) K []; REndword (lit "ab") (Explicit (b 42)) K [];
   RMidword (lit "ab") (Explicit (b 43)) K []; RPrepunc (lit ".") (b 44) K; RPostpunc (lit ".") (b 45) K].
Example C51_example : ex_run Forward ex_words (lit "Ab cab abc cabd") [] =
  Some [(lit "ab", b 40); (lit " ", b 0); (lit "c", b 9); (lit "ab", b 42); (lit " ", b 0); (lit "ab", b 41); (lit "c", b 9);
        (lit " ", b 0); (lit "c", b 9); (lit "ab", b 43); (lit "d", b 25)].
Proof. vm_compute. reflexivity. Qed.
Example C50_example : ex_run Forward ex_words (lit ".d.") [] = Some [(lit ".", b 44); (lit "d", b 25); (lit ".", b 50)].
Proof. vm_compute. reflexivity. Qed.
(** each of the two places of a sufword and of a prfword rule *)
Example C51_example_two_places :
  ex_run Forward (ex_letters ++ [RSufword (lit "ab") (Explicit (b 40)) K []; RPrfword (lit "cd") (Explicit (b 41)) K []; RPartword (lit "bd") (Explicit (b 42)) K []])
    (lit "ab abc cab cd acd cda abd bda bd") [] =
  Some [(lit "ab", b 40); (lit " ", b 0); (lit "ab", b 40); (lit "c", b 9); (lit " ", b 0); (lit "c", b 9); (lit "a", b 1); (lit "b", b 3);
        (lit " ", b 0); (lit "cd", b 41); (lit " ", b 0); (lit "a", b 1); (lit "cd", b 41); (lit " ", b 0); (lit "c", b 9); (lit "d", b 25); (lit "a", b 1); (lit " ", b 0);
        (lit "ab", b 40); (lit "d", b 25); (lit " ", b 0); (lit "bd", b 42); (lit "a", b 1); (lit " ", b 0); (lit "b", b 3); (lit "d", b 25)].
Proof. vm_compute. reflexivity. Qed.
(** the hypotheses of the theorems, for the first of these words *)
Example C51_example_place : forall table x, context_compile ex_alpha true table = TOk x -> forall before, seen_before ex_lower (lit "ab abc") 0 before ->
  In (RSpace 32%N (b 0) K) table ->
  opcode_place x (RSufword (lit "ab") (Explicit (b 40)) K []) before (Some 32%N) /\ classes_around x (RSufword (lit "ab") (Explicit (b 40)) K []) before (Some 32%N).
Proof.
  intros table x E before SB I. cbn in SB. subst before. split; [|intros w []]. split; [left; reflexivity|]. left. right. left. exists 32%N. split; [reflexivity|].
  apply (TableProofs.compile_classes ex_alpha true table x CSpace 32%N E). eapply TableProofs.ic_defined; [exact I|]. left. reflexivity.
Qed.
