(** C73: which of the definitions of a character counts. *)
From Coq Require Import Permutation.
From Verif Require Import Base BaseProofs RuleModel TranslationModel TranslationProofs TableModel TableProofs TrieModel PropTrie
  HyphenationModel LoopModel PrimaryProofs CompileModel CompileSpec MainTable ConstraintModel ConstraintSpec ConstraintProofs
  IndicatorModel EmphSpec MainSpec StepProofs TraceSpec MainPass StepFacts TraceProofs PropMain WordSpec WordProofs UndefinedSpec PropUndefined PropMainExamples SaysSpec DefinitionSpec.

Section Definitions.
Variable x : context.
Variable rules : list rule.

Lemma the_first_ext l p q r : (forall s, p s <-> q s) -> the_first l p r -> the_first l q r.
Proof. intros H (a & b & E & P & N). exists a, b. split; [exact E|]. split; [apply H, P|]. intros s I Q. apply (N s I), H, Q. Qed.
Lemma the_last_ext l p q r : (forall s, p s <-> q s) -> the_last l p r -> the_last l q r.
Proof. intros H (a & b & E & P & N). exists a, b. split; [exact E|]. split; [apply H, P|]. intros s I Q. apply (N s I), H, Q. Qed.
Lemma the_first_unique l p r r' : the_first l p r -> the_first l p r' -> r = r'.
Proof.
  intros (a & b & E & P & N) (a' & b' & E' & P' & N'). rewrite E in E'.
  destruct (app_eq_cases _ _ _ _ E') as [(c & -> & H)|(c & -> & H)]; destruct c as [|y c]; cbn in H; try (injection H as H _; congruence).
  - injection H as <- _. exfalso. apply (N' r); [apply in_elt|exact P].
  - injection H as <- _. exfalso. apply (N r'); [apply in_elt|exact P'].
Qed.
Lemma the_last_unique l p r r' : the_last l p r -> the_last l p r' -> r = r'.
Proof.
  intros (a & b & E & P & N) (a' & b' & E' & P' & N'). rewrite E in E'.
  destruct (app_eq_cases _ _ _ _ E') as [(c & -> & H)|(c & -> & H)]; destruct c as [|y c]; cbn in H; try (injection H as H _; congruence).
  - injection H as <- H. exfalso. apply (N r'); [rewrite H; apply in_elt|exact P'].
  - injection H as <- H. exfalso. apply (N' r); [rewrite H; apply in_elt|exact P].
Qed.

Lemma pieces_first f c t l : first_of (flat_map (char_pieces f) l) c t ->
  exists r, the_first l (fun s => exists g, In (c, g) (f s)) r /\ r_origin t = Some r /\ r_input t = [c].
Proof.
  induction l as [|r l IH]; cbn [flat_map].
  - intros (a & b & E & _). destruct a; discriminate E.
  - intros H. apply first_of_app in H. destruct H as [H|[H1 H2]].
    + destruct H as (a & b & E & _). assert (I : In (c, t) (char_pieces f r)) by (rewrite E; apply in_elt).
      unfold char_pieces in I. apply in_map_iff in I. destruct I as ([c' g] & Q & I). cbn [fst snd] in Q. injection Q as Q1 Q2. subst c' t.
      exists r. split; [|split; reflexivity]. exists [], l. split; [reflexivity|]. split; [exists g; exact I|intros s []].
    + destruct (IH H2) as (r' & (a & b & -> & P & N) & O). exists r'. split; [|exact O]. exists (r :: a), b. split; [reflexivity|]. split; [exact P|].
      intros s [<-|I]; [|exact (N s I)]. intros (g & I). apply (H1 (resolved_new [c] g 1 Main (Some r))). unfold char_pieces.
      apply in_map_iff. exists (c, g). split; [reflexivity|exact I].
Qed.
Lemma pieces_last f c t l : last_of (flat_map (char_pieces f) l) c t ->
  exists r, the_last l (fun s => exists g, In (c, g) (f s)) r /\ r_origin t = Some r /\ r_input t = [c].
Proof.
  induction l as [|r l IH]; cbn [flat_map].
  - intros (a & b & E & _). destruct a; discriminate E.
  - intros H. apply last_of_app in H. destruct H as [H|[H1 H2]].
    + destruct (IH H) as (r' & (a & b & -> & P & N) & O). exists r'. split; [|exact O]. exists (r :: a), b. auto.
    + destruct H2 as (a & b & E & _). assert (I : In (c, t) (char_pieces f r)) by (rewrite E; apply in_elt).
      unfold char_pieces in I. apply in_map_iff in I. destruct I as ([c' g] & Q & I). cbn [fst snd] in Q. injection Q as Q1 Q2. subst c' t.
      exists r. split; [|split; reflexivity]. exists [], l. split; [reflexivity|]. split; [exists g; exact I|].
      intros s J (g' & I'). apply (H1 (resolved_new [c] g' 1 Main (Some s))). apply in_flat_map. exists s. split; [exact J|].
      apply in_map_iff. exists (c, g'). split; [reflexivity|exact I'].
Qed.
Lemma pieces_none f c l : (forall t, ~ In (c, t) (flat_map (char_pieces f) l)) -> forall s, In s l -> ~ exists g, In (c, g) (f s).
Proof.
  intros H s I (g & J). apply (H (resolved_new [c] g 1 Main (Some s))). apply in_flat_map. exists s. split; [exact I|].
  apply in_map_iff. exists (c, g). split; [reflexivity|exact J].
Qed.
Lemma early_iff c s : (exists g, In (c, g) (first_characters s)) <-> early s c.
Proof.
  split.
  - intros (g & H). destruct s; cbn in H; try (destruct H; fail); destruct H as [H|[]]; injection H as -> ->; [left|right]; eauto.
  - intros [(g & ->)|(g & k & ->)]; exists g; left; reflexivity.
Qed.
Lemma litdigits_iff c : mem c (litdigit_chars Forward rules) = true <-> exists g k, In (RLitdigit c g k) rules.
Proof.
  rewrite mem_In. unfold litdigit_chars. rewrite in_flat_map. split.
  - intros (r & I & H). destruct r; try (destruct H; fail). destruct H as [<-|[]]. eauto.
  - intros (g & k & I). eexists. split; [exact I|left; reflexivity].
Qed.
Lemma late_iff c s : (exists g, In (c, g) (other_characters Forward x rules s)) <-> late x rules s c.
Proof.
  split.
  - intros (g & H). destruct s; cbn [other_characters] in H; try (destruct H; fail); try (destruct H as [H|[]]; injection H as H _; subst; reflexivity).
    + destruct (mem c0 (litdigit_chars Forward rules)) eqn:M; [destruct H|]. destruct H as [H|[]]. injection H as H _. subst c0.
      split; [reflexivity|]. intros L. apply litdigits_iff in L. congruence.
    + destruct (defs_get (x_defs x) base) eqn:D; [|destruct H]. destruct H as [H|[]]. injection H as H _. subst derived. split; [reflexivity|congruence].
  - intros H. destruct s; cbn [late] in H; try (destruct H; fail); try (subst; eexists; left; reflexivity).
    + destruct H as [<- N]. cbn [other_characters]. destruct (mem c (litdigit_chars Forward rules)) eqn:M; [apply litdigits_iff in M; contradiction|].
      eexists. left. reflexivity.
    + destruct H as [<- N]. cbn [other_characters]. destruct (defs_get (x_defs x) base); [|congruence]. eexists. left. reflexivity.
Qed.
Lemma lookup_definition compat c t : character_lookup Forward x rules compat c = Some t ->
  exists r, the_definition x rules compat c r /\ r_origin t = Some r /\ r_input t = [c].
Proof.
  unfold character_lookup, character_table. cbn [is_backward]. destruct compat; cbn [the_definition].
  - intros H. apply assoc_first, first_of_app in H. destruct H as [H|[N H]].
    + destruct (pieces_first _ _ _ _ H) as (r & R & O). exists r. split; [|exact O]. left. eapply the_first_ext; [apply early_iff|exact R].
    + destruct (pieces_first _ _ _ _ H) as (r & R & O). exists r. split; [|exact O]. right. split; [|eapply the_first_ext; [apply late_iff|exact R]].
      intros s I E. apply (pieces_none _ _ _ N s I), early_iff, E.
  - intros H. apply assoc_rev_last, last_of_app in H. destruct H as [H|[N H]].
    + destruct (pieces_last _ _ _ _ H) as (r & R & O). exists r. split; [|exact O]. left. eapply the_last_ext; [apply late_iff|exact R].
    + destruct (pieces_last _ _ _ _ H) as (r & R & O). exists r. split; [|exact O]. right. split; [|eapply the_last_ext; [apply early_iff|exact R]].
      intros s I E. apply (pieces_none _ _ _ N s I), late_iff, E.
Qed.
Lemma lookup_none compat c : character_lookup Forward x rules compat c = None -> ~ defined x rules c.
Proof.
  unfold character_lookup, character_table. cbn [is_backward]. intros H.
  assert (N : forall t, ~ In (c, t) (flat_map (char_pieces first_characters) rules ++ flat_map (char_pieces (other_characters Forward x rules)) rules)).
  { intros t. destruct compat; [apply assoc_None, H|]. intros I. apply in_rev in I. revert I. apply assoc_None, H. }
  intros (r & I & [E|E]).
  - apply early_iff in E. revert E. apply (pieces_none _ _ rules); [|exact I]. intros t J. apply (N t), in_or_app. auto.
  - apply late_iff in E. revert E. apply (pieces_none _ _ rules); [|exact I]. intros t J. apply (N t), in_or_app. auto.
Qed.

Theorem C73_one_definition : forall default c r r', the_definition x rules default c r -> the_definition x rules default c r' -> r = r'.
Proof.
  intros default c r r' H H'. destruct default; cbn [the_definition] in H, H'.
  - destruct H as [H|[N H]], H' as [H'|[N' H']].
    + eapply the_first_unique; eauto.
    + exfalso. destruct H as (a & b & E & P & _). apply (N' r); [rewrite E; apply in_elt|exact P].
    + exfalso. destruct H' as (a & b & E & P & _). apply (N r'); [rewrite E; apply in_elt|exact P].
    + eapply the_first_unique; eauto.
  - destruct H as [H|[N H]], H' as [H'|[N' H']].
    + eapply the_last_unique; eauto.
    + exfalso. destruct H as (a & b & E & P & _). apply (N' r); [rewrite E; apply in_elt|exact P].
    + exfalso. destruct H' as (a & b & E & P & _). apply (N r'); [rewrite E; apply in_elt|exact P].
    + eapply the_last_unique; eauto.
Qed.
Lemma is_comp6_def r : defines_one r = true -> is_comp6 r = false.
Proof. destruct r; try discriminate; reflexivity. Qed.
End Definitions.
Print Assumptions C73_one_definition.

Section Pieces.
Variable is_alphabetic : char -> bool.
Variable compat : bool.
Variable read_dictionary : str -> tres hyph.
Variable x : context.
Variable rules : list rule.
Variable lower upper : char -> list char.
Variable sort : list event -> res (list event).
Variable m : main_table.
Hypothesis B : main_built is_alphabetic compat read_dictionary Forward x rules m.
Hypothesis DR : dictionaries_read read_dictionary.
Hypothesis SR : sort_rearranges sort.
Notation trace := (main_trace lower upper sort m).

(** A piece that comes from the definition of a character stands for that character and comes
    from the definition that counts. *)
Theorem C73_the_definition_used : forall input spans out a t b r,
  trace input spans = Ok out -> out = a ++ t :: b -> r_origin t = Some r -> defines_one r = true ->
  exists c, nth_error input (TraceSpec.position a) = Some c /\ r_input t = [c] /\ the_definition x rules compat c r.
Proof.
  intros input spans out a t b r E Eo Or DO.
  destruct (pass_traced _ _ _ _ _ _ lower upper sort m B DR input spans out SR E) as (sp & em & caps & ind & lim & ts & T).
  assert (NS : is_sign t = false) by (unfold is_sign; rewrite Or; destruct r; try discriminate DO; apply andb_false_r).
  destruct (text_piece_facts _ _ _ _ _ _ _ _ _ _ B _ _ _ _ _ _ _ _ _ _ _ _ T Eo NS) as (ts1 & h & u & R & H & Et & L & O & IL & _).
  pose proof (mb_rules _ _ _ _ _ _ _ B) as CM. assert (Ou : r_origin u = Some r) by congruence.
  destruct (shown_fields upper Forward lim (TraceSpec.position a) (h, u)) as (_ & IN & _). rewrite <- Et in IN. cbn [snd] in IN.
  assert (WE : forall e, In e (word_entries x r) -> False) by (intros e W; destruct r; try discriminate DO; destruct W).
  assert (OFF : forall l rest prev, rule_offers compat Forward x lower l rest prev u -> (forall e, In e l -> i_origin e = Some r -> In e (word_entries x r)) -> False).
  { intros l rest prev (full & e & F & _ & EU) K. apply (WE e), K; [exact (in_force_in _ _ _ _ _ _ F)|]. rewrite EU in Ou. exact Ou. }
  assert (NP : ~ pattern_rule r) by (intros PR; destruct r; try discriminate DO; destruct PR; discriminate).
  destruct h; cbn [best] in H.
  - exfalso. destruct H as ((H & _) & _). cbn [by_nocross rule_sources] in H. eapply OFF; [exact H|]. intros e I O'. eapply nocross_entry; eauto.
  - exfalso. destruct H as (H & _).
    destruct (available_facts compat read_dictionary Forward x rules lower _ CM lim input ts1 u IL H) as (_ & r' & _ & O' & _ & C6 & _).
    rewrite Ou in O'. injection O' as <-. unfold available in H. destruct (flag_at k_comp6 lim (reached ts1)).
    { rewrite (is_comp6_def r DO) in C6. discriminate (proj2 C6 eq_refl). }
    destruct H as (_ & [(D & _)|(H & _)]); [discriminate D|].
    destruct H as [H|[(H & _)|(b' & c & v & _ & H & _ & _ & _ & EU)]].
    + eapply OFF; [exact H|]. intros e I O'. eapply main_entry; eauto.
    + apply (found_facts compat Forward x rules lower) in H. destruct H as (_ & _ & r' & _ & O1 & PR). rewrite Ou in O1. injection O1 as <-. exact (NP PR).
    + apply (found_facts compat Forward x rules lower) in H. destruct H as (_ & _ & r' & _ & O1 & PR).
      rewrite EU in Ou. cbn [with_offset r_origin] in Ou. rewrite Ou in O1. injection O1 as <-. exact (NP PR).
  - destruct H as ((c & rr & EL & CO) & _). exists c. unfold MainSpec.left in EL. rewrite R in EL. cbn [by_character rule_sources] in CO. unfold character_offers in CO.
    split. { rewrite <- (firstn_skipn (TraceSpec.position a) input), EL, nth_error_app2; rewrite firstn_length; [|lia]. rewrite Nat.min_l, Nat.sub_diag by (rewrite R in IL; exact IL). reflexivity. }
    destruct (character_lookup Forward x rules compat c) as [t'|] eqn:EC.
    + subst t'. destruct (lookup_definition _ _ _ _ _ EC) as (r' & TD & O' & I'). rewrite Ou in O'. injection O' as <-. rewrite IN. auto.
    + exfalso. destruct (undefined_dots rules); [subst u; discriminate Ou|]. destruct CO as (hh & _ & EH). rewrite EH in Ou. discriminate Ou.
Qed.
(** A piece without a rule stands for a character without a definition. *)
Theorem C73_undefined_characters : forall input spans out a t b,
  trace input spans = Ok out -> out = a ++ t :: b -> r_origin t = None ->
  exists c, nth_error input (TraceSpec.position a) = Some c /\ r_input t = [c] /\ ~ defined x rules c.
Proof.
  intros input spans out a t b E Eo Or.
  destruct (C13_pieces_without_a_rule is_alphabetic compat read_dictionary Forward x rules lower upper sort m B DR SR input spans out a t b E Eo Or)
    as (c & N & I & _ & L & _).
  exists c. split; [exact N|]. split; [exact I|]. eapply lookup_none, L.
Qed.
(** So a character is always written by the same definition. *)
Theorem C73_always_the_same : forall input1 spans1 out1 input2 spans2 out2 t1 t2 r1 r2 c,
  trace input1 spans1 = Ok out1 -> trace input2 spans2 = Ok out2 -> In t1 out1 -> In t2 out2 ->
  r_origin t1 = Some r1 -> r_origin t2 = Some r2 -> defines_one r1 = true -> defines_one r2 = true ->
  r_input t1 = [c] -> r_input t2 = [c] -> r1 = r2.
Proof.
  intros input1 spans1 out1 input2 spans2 out2 t1 t2 r1 r2 c E1 E2 I1 I2 O1 O2 D1 D2 N1 N2.
  apply in_split in I1, I2. destruct I1 as (a1 & b1 & I1), I2 as (a2 & b2 & I2).
  destruct (C73_the_definition_used _ _ _ _ _ _ _ E1 I1 O1 D1) as (c1 & _ & M1 & T1).
  destruct (C73_the_definition_used _ _ _ _ _ _ _ E2 I2 O2 D2) as (c2 & _ & M2 & T2).
  rewrite N1 in M1. rewrite N2 in M2. injection M1 as <-. injection M2 as <-. eapply C73_one_definition; eauto.
Qed.
End Pieces.
Print Assumptions C73_the_definition_used.
Print Assumptions C73_undefined_characters.
Print Assumptions C73_always_the_same.

(** The first definition in the table is not always the one that counts. *)
Definition ex_two : list rule :=
  [RDigit (ch "1") (b 2) K; RPunctuation (ch "-") (b 9) K; RLetter (ch "a") (b 1) K; RLitdigit (ch "1") (b 3) K; RHyphen (ch "-") (b 36) K; RLetter (ch "a") (b 7) K].
Theorem C73_the_first_definition_refuted :
  ex_run Forward ex_two (lit "1-a") [] = Some [(lit "1", b 3); (lit "-", b 36); (lit "a", b 1)].
Proof. vm_compute. reflexivity. Qed.
Print Assumptions C73_the_first_definition_refuted.
Local Ltac each I := lazymatch type of I with _ \/ _ => destruct I as [I|I]; each I | False => destruct I | _ => idtac end.
Example C73_example : forall x,
  the_definition x ex_two true (ch "1") (RLitdigit (ch "1") (b 3) K) /\ the_definition x ex_two true (ch "-") (RHyphen (ch "-") (b 36) K) /\
  the_definition x ex_two true (ch "a") (RLetter (ch "a") (b 1) K) /\ the_definition x ex_two false (ch "a") (RLetter (ch "a") (b 7) K) /\
  the_definition x ex_two false (ch "-") (RPunctuation (ch "-") (b 9) K) /\
  ~ defined x ex_two (ch "z").
Proof.
  intros x. unfold ex_two. repeat split; cbn [the_definition].
  - right. split.
    + intros s I [(g & ->)|(g & k & ->)]; cbn in I; each I; discriminate I.
    + eexists [_; _; _], [_; _]. split; [reflexivity|]. split; [reflexivity|]. intros s I H. cbn in I.
      each I; subst s; try discriminate H. destruct H as [_ H]. apply H. do 2 eexists. right. right. right. left. reflexivity.
  - left. eexists [_; _; _; _], [_]. split; [reflexivity|]. split; [right; do 2 eexists; reflexivity|].
    intros s I [(g & ->)|(g & k & ->)]; cbn in I; each I; discriminate I.
  - right. split.
    + intros s I [(g & ->)|(g & k & ->)]; cbn in I; each I; discriminate I.
    + eexists [_; _], [_; _; _]. split; [reflexivity|]. split; [reflexivity|]. intros s I H. cbn in I.
      each I; subst s; try discriminate H. destruct H as [H _]. discriminate H.
  - left. eexists [_; _; _; _; _], []. split; [reflexivity|]. split; [reflexivity|]. intros s [].
  - left. eexists [_], [_; _; _; _]. split; [reflexivity|]. split; [reflexivity|]. intros s I H. cbn in I.
    each I; subst s; try discriminate H; destruct H.
  - intros (r & I & H). cbn in I. destruct H as [H|H].
    + each I; subst r; destruct H as [(g & H)|(g & k & H)]; discriminate H.
    + each I; subst r; try discriminate H; (destruct H; fail) || (destruct H as [H _]; discriminate H).
Qed.
(** the table of the refutation above can be built and used *)
Example C73_applies : exists x m out, main_built ex_alpha true ex_dictionary Forward x ex_two m /\
  main_trace ex_lower ex_upper ex_sort m (lit "1-a") [] = Ok out /\ map r_origin out =
    [Some (RLitdigit (ch "1") (b 3) K); Some (RHyphen (ch "-") (b 36) K); Some (RLetter (ch "a") (b 1) K)].
Proof.
  destruct (ex_compile Forward ex_two) as [[x m]| |] eqn:E; [|vm_compute in E; discriminate E..].
  assert (Y : match ex_compile Forward ex_two with
              | TOk (_, m) => match main_trace ex_lower ex_upper ex_sort m (lit "1-a") [] with Ok out => map r_origin out | _ => [] end
              | _ => [] end = [Some (RLitdigit (ch "1") (b 3) K); Some (RHyphen (ch "-") (b 36) K); Some (RLetter (ch "a") (b 1) K)])
    by (vm_compute; reflexivity).
  rewrite E in Y. destruct (main_trace ex_lower ex_upper ex_sort m (lit "1-a") []) as [out| |] eqn:Et; try discriminate Y.
  exists x, m, out. split; [eapply ex_built, E|]. split; [exact Et|exact Y].
Qed.
