(** C72: of the rules for the same text in the same place, which one is used. *)
From Coq Require Import Permutation.
From Verif Require Import Base BaseProofs RuleModel TranslationModel TranslationProofs TableModel TableProofs RegexpModel
  RegexpSpec PatternModel MatchProofs TrieModel TrieProofs PropTrie
  HyphenationModel HyphenationProofs LoopModel LoopProofs MultipassProofs PrimaryProofs PrimaryTrace CompileModel CompileSpec
  CompileProofs MainTable ConstraintModel ConstraintSpec ConstraintProofs IndicatorModel IndicatorProofs
  CapsSpec CapsProofs CapsFacts EmphSpec EmphProofs MainSpec StepProofs TraceSpec MainPass StepFacts TraceProofs PropMain WordSpec WordProofs
  SaysSpec PropMainExamples FaultSpec PropPieces RivalSpec.

Section Rivals.
Variable is_alphabetic : char -> bool.
Variable compat : bool.
Variable read_dictionary : str -> tres hyph.
Variable d : direction.
Variable x : context.
Variable rules : list rule.
Variable lower upper : char -> list char.
Variable sort : list event -> res (list event).
Variable m : main_table.
Hypothesis B : main_built is_alphabetic compat read_dictionary d x rules m.
Hypothesis DR : dictionaries_read read_dictionary.
Hypothesis SR : sort_rearranges sort.
Notation trace := (main_trace lower upper sort m).
Notation src := (rule_sources compat d x rules lower).
Notation cls := (trie_ctx d x).

Definition side_before (s : side) : option transition :=
  match s with
  | Anything => None | Edge => Some (TrStart [CSpace; CPunctuation]) | Letter => Some (TrStart [CLetter])
  | Digit => Some (TrStart [CDigit]) | LetterOrEdge => Some (TrStart [CLetter; CSpace; CPunctuation])
  end.
Definition side_behind (s : side) : option transition :=
  match s with
  | Anything => None | Edge => Some (TrEnd [CSpace; CPunctuation]) | Letter => Some (TrEnd [CLetter])
  | Digit => Some (TrEnd [CDigit]) | LetterOrEdge => Some (TrEnd [CLetter; CSpace; CPunctuation])
  end.
Definition rule_entries (r : rule) : list ins_args :=
  backward_only d (character_entries first_characters r) ++ main_entries_of d x rules r ++ (if is_nocross r then word_entries x r else []).
Definition trie_entries (r : rule) : list ins_args := if is_nocross r then nocross_entries x rules else main_entries d x rules.

Lemma nocross_same r : places d r <> [] -> is_nocross r = marked_nocross r.
Proof. destruct r; try reflexivity. intros H. destruct H. reflexivity. Qed.
Lemma spells_unique ds t : forall g g', spells ds t g -> spells ds t g' -> g = g'.
Proof.
  induction t as [|c t IH]; intros g g' H H'; inversion H; inversion H'; subst; [reflexivity|].
  f_equal; [congruence|auto].
Qed.
Lemma means_unique bb t g g' : means x bb t g -> means x bb t g' -> g = g'.
Proof. destruct bb; cbn; intros; [eapply spells_unique; eauto|congruence]. Qed.
Lemma says_unique r t g t' g' : says x r t g -> says x r t' g' -> t = t' /\ g = g'.
Proof.
  destruct r; cbn [says sign_dots]; intros H H'; try (destruct H; fail); destruct H as [-> H], H' as [-> H'];
    (split; [reflexivity|]); first [eapply means_unique; eassumption|congruence].
Qed.
Definition entry_of (r : rule) (p : side * side) (e : ins_args) : Prop :=
  i_origin e = Some r /\ says x r (i_from e) (i_to e) /\ i_prec e = rule_precedence r /\
  i_before e = side_before (fst p) /\ i_after e = side_behind (snd p) /\ i_constraints e = class_constraints x (with_classes r).

Lemma word_entry_place r e : In e (word_entries x r) -> exists p, In p (places d r) /\ entry_of r p e.
Proof.
  intros H. destruct (word_says x r e H) as [O SY]. unfold entry_of. cut (exists p, In p (places d r) /\ i_prec e = rule_precedence r /\
    i_before e = side_before (fst p) /\ i_after e = side_behind (snd p) /\ i_constraints e = class_constraints x (with_classes r)).
  { intros (p & P & Q). exists p. tauto. }
  clear O SY. unfold word_entries in H. destruct r; cbn [word_insertions] in H; try (destruct H; fail);
    try (match type of H with context [dots_of x ?b ?t] => destruct (dots_of x b t) as [tt| |] eqn:ED; cbn [tbind] in H; try (destruct H; fail) end); cbn [In] in H;
    try (destruct (forallb _ _); cbn [In] in H; try (destruct H; fail));
    repeat match type of H with _ \/ _ => destruct H as [H|H] end; try (destruct H; fail); subst e;
    first [ eexists; split; [left; reflexivity|cbn; auto; fail] | eexists; split; [right; left; reflexivity|cbn; auto; fail] ].
Qed.
Lemma entry_place r e : In e (rule_entries r) -> exists p, In p (places d r) /\ entry_of r p e.
Proof.
  unfold rule_entries, main_entries_of. rewrite !in_app_iff. intros H.
  assert (CH : forall f, f = first_characters \/ f = other_characters d x rules -> In e (backward_only d (character_entries f r)) ->
    exists p, In p (places d r) /\ entry_of r p e).
  { intros f F I. unfold backward_only in I. destruct (is_backward d) eqn:D; [|destruct I].
    pose proof (character_says d x rules f r e F I) as [O SY].
    exists (Anything, Anything). unfold entry_of. rewrite O. unfold character_entries in I. apply in_map_iff in I. destruct I as ([c g] & <- & I).
    destruct d; [discriminate D|]. destruct F as [-> | ->]; destruct r; try (destruct I; fail); (split; [left; reflexivity|]);
      (split; [reflexivity|]); (split; [exact SY|]); repeat (split; [reflexivity|]); reflexivity. }
  destruct H as [H|[[H|[H|H]]|H]].
  - apply (CH first_characters); auto.
  - apply (CH (other_characters d x rules)); auto.
  - pose proof (indicator_says d x rules r e H) as [O SY]. exists (Anything, Anything). unfold entry_of.
    destruct d; [destruct r; destruct H|].
    destruct r; try (destruct H; fail); cbn [indicator_entries] in H; (destruct (_ && _)%bool; [|destruct H]); destruct H as [<-|[]];
      (split; [left; reflexivity|]); (split; [reflexivity|]); (split; [exact SY|]); repeat (split; [reflexivity|]); reflexivity.
  - destruct (is_nocross r); [destruct H|]. apply word_entry_place, H.
  - destruct (is_nocross r); [|destruct H]. apply word_entry_place, H.
Qed.
Lemma means_dots bb t g : means x bb t g -> dots_of x bb t = TOk g.
Proof. unfold dots_of. destruct bb; cbn; [intros H; apply resolve_implicit_ok, H|congruence]. Qed.
Lemma entry_exists s p text dots : In p (places d s) -> takes_part x rules s -> says x s text dots ->
  exists e, In e (rule_entries s) /\ entry_of s p e.
Proof.
  intros P TP SY.
  cut (exists e, In e (rule_entries s) /\ i_before e = side_before (fst p) /\ i_after e = side_behind (snd p)).
  { intros (e & I & H1 & H2). exists e. split; [exact I|]. destruct (entry_place s e I) as (q & _ & Q1 & Q2 & Q3 & Q4 & Q5 & Q6).
    unfold entry_of. auto 8. }
  assert (BK : forall f, f = first_characters \/ f = other_characters d x rules -> d = Backward ->
    (exists c g, In (c, g) (f s)) -> p = (Anything, Anything) -> exists e, In e (rule_entries s) /\ i_before e = side_before (fst p) /\ i_after e = side_behind (snd p)).
  { intros f F D (c & g & I) ->. exists (mk_ins [c] g None None (rule_precedence s) [] Main (Some s)). split; [|auto].
    unfold rule_entries, main_entries_of. rewrite !in_app_iff. rewrite D in *.
    assert (J : In (mk_ins [c] g None None (rule_precedence s) [] Main (Some s)) (backward_only Backward (character_entries f s))).
    { cbn [backward_only is_backward]. unfold character_entries. apply in_map_iff. exists (c, g). auto. }
    destruct F as [-> | ->]; auto. }
  assert (WD : (exists e, In e (word_entries x s) /\ i_before e = side_before (fst p) /\ i_after e = side_behind (snd p)) ->
    exists e, In e (rule_entries s) /\ i_before e = side_before (fst p) /\ i_after e = side_behind (snd p)).
  { intros (e & I & Q). exists e. split; [|exact Q]. unfold rule_entries, main_entries_of. rewrite !in_app_iff. destruct (is_nocross s); auto. }
  assert (IN : d = Backward -> forall g, sign_dots s = Some g -> p = (Anything, Anything) -> is_letter_dots d rules g = false ->
     (match s with RNumsign _ | RNonumsign _ _ | RCapsletter _ _ | RBegcapsword _ _ | REndcapsword _ _ => True | _ => False end) ->
     exists e, In e (rule_entries s) /\ i_before e = side_before (fst p) /\ i_after e = side_behind (snd p)).
  { intros D g SD -> L KS. exists (mk_ins [] g None None (rule_precedence s) [] Main (Some s)). split; [|auto].
    unfold rule_entries, main_entries_of. rewrite !in_app_iff. right. left. right. left. rewrite D in *.
    destruct s; try (destruct KS; fail); cbn [sign_dots] in SD; injection SD as ->; cbn [indicator_entries]; rewrite L; left; reflexivity. }
  assert (LT : forall g, (forall q c k, In q rules -> ~ (q = RLetter c g k \/ q = RLowercase c g k \/ q = RUppercase c g k)) -> is_letter_dots d rules g = false).
  { intros g N. unfold is_letter_dots, letter_dots. destruct d; [reflexivity|].
    destruct (existsb _ _) eqn:EX; [exfalso|reflexivity]. apply existsb_exists in EX. destruct EX as (g' & I & Q). apply str_eqb_eq in Q. subst g'.
    apply in_flat_map in I. destruct I as (q & Iq & I). destruct q; cbn in I; try (destruct I; fail); destruct I as [<-|[]]; eapply N; eauto. }
  unfold word_entries in WD.
  destruct s; cbn [places] in P; try (destruct P; fail).
  (* characters and signs *)
  all: try (destruct d eqn:D; [destruct P|]; destruct P as [<-|[]]; rewrite <- D in *; first
    [ apply (BK first_characters); auto; eexists _, _; left; reflexivity
    | apply (BK (other_characters d x rules)); auto; eexists _, _; left; reflexivity
    | apply (BK (other_characters d x rules)); auto; cbn [other_characters]; destruct (says_unique _ _ _ _ _ SY SY); destruct SY as [_ SY]; rewrite SY; eexists _, _; left; reflexivity
    | apply (BK (other_characters d x rules)); auto; cbn [other_characters]; rewrite D; cbn; eexists _, _; left; reflexivity
    | eapply IN; [first [exact D|reflexivity]|reflexivity|reflexivity|apply LT, TP|exact Coq.Init.Logic.I] ]; fail).
  (* words *)
  all: apply WD; cbn [word_insertions]; cbn [says] in SY; destruct SY as [_ SY]; try apply means_dots in SY; try rewrite SY; cbn [tbind];
    try (match goal with |- context [forallb ?f ?l] => replace (forallb f l) with true by (symmetry; apply forallb_forall; exact TP) end);
    cbn [In] in P; repeat match type of P with _ \/ _ => destruct P as [P|P] end; try (destruct P; fail); subst p;
    first [ eexists; split; [left; reflexivity|split; reflexivity] | eexists; split; [right; left; reflexivity|split; reflexivity] ].
Qed.
Lemma displaces_strong r p e : In p (places d r) -> entry_of r p e -> (displaces r = true <-> strong e).
Proof.
  intros P (_ & _ & PR & _). unfold strong. rewrite PR. destruct r; cbn; split; try discriminate; try congruence; try (intros []; reflexivity); destruct P.
Qed.
Lemma entry_rivals r s p e e' k : entry_of r p e -> entry_of s p e' -> looks_for d x r k -> looks_for d x s k ->
  with_classes s = with_classes r -> rivals cls d e e'.
Proof.
  intros (_ & S1 & _ & B1 & A1 & C1) (_ & S2 & _ & B2 & A2 & C2) (t1 & g1 & L1 & K1) (t2 & g2 & L2 & K2) W.
  destruct (says_unique _ _ _ _ _ S1 L1) as [F1 G1], (says_unique _ _ _ _ _ S2 L2) as [F2 G2].
  assert (R : forall l, Forall2 (same_condition cls) l l) by (induction l; constructor; auto; intros c; tauto).
  split; [|split].
  - unfold sought. destruct d; congruence.
  - unfold pre_conditions. rewrite B1, B2, C1, C2, W. apply R.
  - unfold post_conditions. rewrite A1, A2, C1, C2, W. apply R.
Qed.
Lemma entries_origin l r e : l = main_entries d x rules \/ l = nocross_entries x rules -> In e l -> i_origin e = Some r ->
  In r rules /\ In e (rule_entries r).
Proof.
  intros L I O.
  assert (Q : exists r', In r' rules /\ In e (rule_entries r')).
  { destruct L as [-> | ->].
    - unfold main_entries in I. rewrite in_app_iff, !in_flat_map in I. unfold rule_entries.
      destruct I as [(r' & Hr & I)|(r' & Hr & I)]; exists r'; (split; [exact Hr|]); rewrite !in_app_iff; auto.
    - unfold nocross_entries in I. rewrite in_flat_map in I. destruct I as (r' & Hr & I). exists r'. split; [exact Hr|]. unfold rule_entries. rewrite !in_app_iff. auto. }
  destruct Q as (r' & Hr & H). destruct (entry_place r' e H) as (p & _ & O' & _). rewrite O in O'. injection O' as <-. auto.
Qed.
Lemma piece_entry input spans out t r : trace input spans = Ok out -> In t out -> r_origin t = Some r -> looked_up d r = true ->
  exists full e, in_force compat cls d (trie_entries r) full e /\ i_origin e = Some r.
Proof.
  intros E I Or LU. apply in_split in I. destruct I as (a & b & Eo).
  destruct (pass_traced _ _ _ _ _ _ lower upper sort m B DR input spans out SR E) as (sp & em & caps & ind & lim & ts & T).
  assert (NS : is_sign t = false) by (unfold is_sign; rewrite Or; destruct r; try discriminate LU; apply andb_false_r).
  destruct (text_piece_facts _ _ _ _ _ _ _ _ _ _ B _ _ _ _ _ _ _ _ _ _ _ _ T Eo NS) as (ts1 & h & u & R & H & Et & L & O & IL & _).
  pose proof (mb_rules _ _ _ _ _ _ _ B) as CM. assert (Ou : r_origin u = Some r) by congruence.
  assert (OFF : forall l rest prev, rule_offers compat d x lower l rest prev u -> l = trie_entries r ->
    exists full e, in_force compat cls d (trie_entries r) full e /\ i_origin e = Some r).
  { intros l rest prev (full & e & F & _ & EU) ->. exists full, e. split; [exact F|]. rewrite EU in Ou. exact Ou. }
  assert (NC : is_comp6 r = false) by (destruct r; try reflexivity; discriminate LU).
  assert (NP : ~ pattern_rule r) by (intros PR; destruct r; try discriminate LU; destruct PR; discriminate).
  destruct h; cbn [best] in H.
  - destruct H as ((H & _) & _). cbn [by_nocross rule_sources] in H. destruct (nocross_offer compat read_dictionary d x rules lower _ CM _ _ _ H) as (_ & r' & _ & O' & N).
    rewrite Ou in O'. injection O' as <-. eapply OFF; [exact H|]. unfold trie_entries. rewrite N. reflexivity.
  - destruct H as (H & _).
    destruct (available_facts compat read_dictionary d x rules lower _ CM lim input ts1 u IL H) as (_ & r' & _ & O' & N & C6 & _).
    rewrite Ou in O'. injection O' as <-. unfold available in H. destruct (flag_at k_comp6 lim (reached ts1)).
    { rewrite (proj2 C6 eq_refl) in NC. discriminate NC. }
    destruct H as (_ & [(D & _ & c & rr & _ & H)|(H & _)]).
    + exfalso. cbn [as_digit rule_sources] in H. apply assoc_in, digit_table_in in H. destruct H as (_ & _ & _ & _ & r' & ch & k & _ & O1 & _ & Q).
      rewrite Ou in O1. injection O1 as <-. destruct Q as [-> | ->]; discriminate LU.
    + destruct H as [H|[(H & _)|(b' & c & v & _ & H & _ & _ & _ & EU)]].
      * eapply OFF; [exact H|]. unfold trie_entries. rewrite N. reflexivity.
      * exfalso. apply (found_facts compat d x rules lower) in H. destruct H as (_ & _ & r' & _ & O1 & PR). rewrite Ou in O1. injection O1 as <-. exact (NP PR).
      * exfalso. apply (found_facts compat d x rules lower) in H. destruct H as (_ & _ & r' & _ & O1 & PR).
        rewrite EU in Ou. cbn [with_offset r_origin] in Ou. rewrite Ou in O1. injection O1 as <-. exact (NP PR).
  - exfalso. destruct H as ((c & rr & _ & H) & _). destruct d eqn:D.
    + apply (character_facts compat read_dictionary Forward x rules _ CM) in H. destruct H as (_ & [O'|(r' & _ & O' & DF)]); [congruence|].
      rewrite Ou in O'. injection O' as <-. destruct r; try discriminate LU; destruct DF as (dd & [DF|DF]); destruct DF.
    + cbn [by_character rule_sources] in H. unfold character_offers in H.
      assert (CN : character_lookup Backward x rules compat c = None) by (unfold character_lookup, character_table; cbn [is_backward]; destruct compat; reflexivity).
      rewrite CN in H. destruct (undefined_dots rules); [subst u; discriminate Ou|]. destruct H as (hh & _ & EH). rewrite EH in Ou. discriminate Ou.
Qed.
Lemma in_suffix {A} (l1 l2 p q : list A) (e : A) : l1 ++ e :: l2 = p ++ q -> ~ In e q -> forall y, In y q -> In y l2.
Proof.
  intros E N y I. apply app_eq_cases in E. destruct E as [(z & -> & X)|(z & -> & X)].
  - destruct z as [|z0 z]; [cbn in X; subst q; exfalso; apply N; left; reflexivity|]. injection X as -> ->. apply in_or_app. auto.
  - exfalso. apply N. rewrite X. apply in_elt.
Qed.
Lemma in_prefix {A} (l1 l2 p q : list A) (e : A) : l1 ++ e :: l2 = p ++ q -> ~ In e p -> forall y, In y p -> In y l1.
Proof.
  intros E N y I. apply app_eq_cases in E. destruct E as [(z & -> & X)|(z & -> & X)].
  - destruct z as [|z0 z]; [rewrite app_nil_r in I; exact I|]. injection X as -> X. exfalso. apply N. apply in_elt.
  - apply in_or_app. auto.
Qed.
Definition later_entries (n : bool) (r : rule) : list ins_args :=
  if n then (if is_nocross r then word_entries x r else []) else main_entries_of d x rules r.
Lemma trie_split a s c r : rules = a ++ s :: c ->
  trie_entries r =
    ((if is_nocross r then [] else flat_map (fun q => backward_only d (character_entries first_characters q)) rules) ++ flat_map (later_entries (is_nocross r)) a) ++
    (later_entries (is_nocross r) s ++ flat_map (later_entries (is_nocross r)) c).
Proof.
  intros E. unfold trie_entries, nocross_entries, main_entries, later_entries. destruct (is_nocross r).
  - rewrite E, flat_map_app. reflexivity.
  - rewrite <- app_assoc. f_equal. rewrite E at 2. rewrite flat_map_app. reflexivity.
Qed.
Lemma later_in n q e : In e (later_entries n q) -> In e (rule_entries q).
Proof. unfold later_entries, rule_entries. rewrite !in_app_iff. destruct n; auto. Qed.
Lemma origin_only q r e : In e (rule_entries q) -> i_origin e = Some r -> q = r.
Proof. intros I O. destruct (entry_place q e I) as (p & _ & O' & _). congruence. Qed.
Lemma later_only n l r e : In e (flat_map (later_entries n) l) -> i_origin e = Some r -> In r l.
Proof.
  intros I O. apply in_flat_map in I. destruct I as (q & Iq & I). apply later_in in I. rewrite <- (origin_only _ _ _ I O). exact Iq.
Qed.
(** the entry of the rule standing in *)
Lemma stand_in_entry input spans out t r s : trace input spans = Ok out -> In t out -> r_origin t = Some r -> looked_up d r = true ->
  stands_in d x rules s r -> In s rules ->
  exists full e e', in_force compat cls d (trie_entries r) full e /\ i_origin e = Some r /\
    rivals cls d e e' /\ In e' (trie_entries r) /\ In e' (rule_entries s) /\ is_nocross s = is_nocross r /\
    (displaces r = true <-> strong e) /\ (displaces s = true <-> strong e').
Proof.
  intros E I Or LU ((k & K1 & K2) & PL & W & N & TP) Is. destruct (piece_entry _ _ _ _ _ E I Or LU) as (full & e & F & O).
  assert (Ie : In e (trie_entries r)) by (destruct F as (l1 & l2 & El & _); rewrite El; apply in_elt).
  destruct (entries_origin (trie_entries r) r e) as [Ir Ier]; [unfold trie_entries; destruct (is_nocross r); auto|exact Ie|exact O|].
  destruct (entry_place r e Ier) as (p & Ip & EO). pose proof (PL p Ip) as Ip'. pose proof K2 as (text & dots & SY & _).
  destruct (entry_exists s p text dots Ip' TP SY) as (e' & Ie' & EO').
  assert (NN : is_nocross s = is_nocross r).
  { rewrite !nocross_same; [exact N|intros Z; rewrite Z in Ip; destruct Ip|intros Z; rewrite Z in Ip'; destruct Ip']. }
  exists full, e, e'. split; [exact F|]. split; [exact O|]. split; [eapply entry_rivals; eauto|]. split.
  { unfold trie_entries. rewrite <- NN. unfold rule_entries in Ie'. rewrite !in_app_iff in Ie'.
    destruct (is_nocross s) eqn:NS.
    - unfold nocross_entries. apply in_flat_map. exists s. split; [exact Is|]. rewrite NS. destruct Ie' as [J|[J|J]]; [| |exact J].
      + unfold backward_only in J. destruct (is_backward d); [|destruct J]. destruct s; try discriminate NS; destruct J.
      + unfold main_entries_of in J. rewrite !in_app_iff in J. destruct J as [J|[J|J]].
        * unfold backward_only in J. destruct (is_backward d); [|destruct J]. destruct s; try discriminate NS; destruct J.
        * destruct s; try discriminate NS; destruct J.
        * rewrite NS in J. destruct J.
    - unfold main_entries. rewrite in_app_iff, !in_flat_map. destruct Ie' as [J|[J|J]]; [left|right|destruct J]; exists s; auto. }
  split; [exact Ie'|]. split; [exact NN|]. split; [eapply displaces_strong; eauto|eapply displaces_strong; eauto].
Qed.

(** Default build: a rule of a displacing opcode takes the place of one of another opcode,
    in whatever order they stand. *)
Theorem C72_displaced_in_any_order : forall input spans out t r s,
  compat = true -> In s rules -> stands_in d x rules s r -> looked_up d r = true -> displaces s = true -> displaces r = false ->
  trace input spans = Ok out -> In t out -> r_origin t <> Some r.
Proof.
  intros input spans out t r s C Is ST LU Ds Dr E I O.
  destruct (stand_in_entry _ _ _ _ _ _ E I O LU ST Is) as (full & e & e' & F & Oe & R & Ie & _ & _ & Se & Se').
  destruct F as (l1 & l2 & El & F & _). rewrite C in F. destruct F as [F1 F2].
  assert (NS : ~ strong e) by (intros X; apply Se in X; congruence). assert (YS : strong e') by (apply Se', Ds).
  rewrite El in Ie. apply in_app_or in Ie. destruct Ie as [J|[<-|J]]; [destruct F2 as [F2|F2]; [exact (F2 _ J R)|exact (NS F2)]|exact (NS YS)|exact (F1 _ J R YS)].
Qed.
(** Default build: among displacing opcodes the last rule counts... *)
Theorem C72_the_last_displaces : forall input spans out t r s a c,
  compat = true -> rules = a ++ s :: c -> ~ In r (s :: c) -> stands_in d x rules s r -> looked_up d r = true -> displaces s = true ->
  trace input spans = Ok out -> In t out -> r_origin t <> Some r.
Proof.
  intros input spans out t r s a c C ER NI ST LU Ds E I O.
  assert (Is : In s rules) by (rewrite ER; apply in_elt).
  destruct (stand_in_entry _ _ _ _ _ _ E I O LU ST Is) as (full & e & e' & F & Oe & R & Ie & Ier & NN & Se & Se').
  destruct F as (l1 & l2 & El & F & _). rewrite C in F. destruct F as [F1 F2].
  rewrite (trie_split a s c r ER) in El. symmetry in El.
  apply (F1 e'); [|exact R|apply Se', Ds]. apply (in_suffix _ _ _ _ _ El).
  - rewrite in_app_iff. intros [J|J]; [apply NI; left; eapply origin_only; [apply (later_in _ _ _ J)|exact Oe]|apply NI; right; eapply later_only; eauto].
  - apply in_or_app. left. unfold later_entries. rewrite <- NN. unfold rule_entries in Ier. rewrite !in_app_iff in Ier.
    assert (NF : backward_only d (character_entries first_characters s) = []) by (unfold backward_only; destruct (is_backward d); [|reflexivity]; destruct s; try discriminate Ds; reflexivity).
    rewrite NF in Ier. destruct Ier as [[]|[J|J]].
    + destruct (is_nocross s) eqn:NS; [|exact J]. unfold main_entries_of in J. rewrite !in_app_iff in J. destruct J as [J|[J|J]].
      * unfold backward_only in J. destruct (is_backward d); [|destruct J]. destruct s; try discriminate NS; destruct J.
      * destruct s; try discriminate NS; destruct J.
      * rewrite NS in J. destruct J.
    + destruct (is_nocross s) eqn:NS; [exact J|destruct J].
Qed.
(** ... and among the others the first, where decpoint and hyphen count as standing first. *)
Theorem C72_the_first_stays : forall input spans out t r s a c,
  compat = true -> rules = a ++ s :: c -> ~ In r (a ++ [s]) -> stands_in d x rules s r -> looked_up d r = true ->
  displaces r = false -> comes_first r = false ->
  trace input spans = Ok out -> In t out -> r_origin t <> Some r.
Proof.
  intros input spans out t r s a c C ER NI ST LU Dr CF E I O.
  assert (Is : In s rules) by (rewrite ER; apply in_elt).
  destruct (stand_in_entry _ _ _ _ _ _ E I O LU ST Is) as (full & e & e' & F & Oe & R & Ie & Ier & NN & Se & Se').
  destruct F as (l1 & l2 & El & F & _). rewrite C in F. destruct F as [F1 F2].
  rewrite (trie_split a s c r ER) in El. symmetry in El. rewrite app_assoc in El.
  assert (NS : ~ strong e) by (intros X; apply Se in X; congruence).
  destruct F2 as [F2|F2]; [|exact (NS F2)]. apply (F2 e'); [|exact R].
  set (firsts := if is_nocross r then [] else flat_map (fun q => backward_only d (character_entries first_characters q)) rules) in *.
  assert (FI : forall y, In y firsts -> exists q, In q rules /\ comes_first q = true /\ In y (rule_entries q)).
  { intros y Iy. unfold firsts in Iy. destruct (is_nocross r); [destruct Iy|]. apply in_flat_map in Iy. destruct Iy as (q & Iq & Iy).
    exists q. split; [exact Iq|]. split; [|unfold rule_entries; apply in_or_app; auto].
    unfold backward_only in Iy. destruct (is_backward d); [|destruct Iy]. destruct q; try (destruct Iy; fail); reflexivity. }
  eapply (in_prefix _ _ _ _ _ El).
  - rewrite !in_app_iff. intros [[J|J]|J].
    + apply FI in J. destruct J as (q & _ & Cq & J). rewrite (origin_only _ _ _ J Oe) in Cq. congruence.
    + apply NI, in_or_app. left. eapply later_only; eauto.
    + apply NI, in_or_app. right. left. eapply origin_only; [apply (later_in _ _ _ J)|exact Oe].
  - unfold later_entries. rewrite !in_app_iff. rewrite <- NN. unfold rule_entries in Ier. rewrite !in_app_iff in Ier. destruct Ier as [J|[J|J]].
    + left. left. unfold firsts. rewrite <- NN. assert (NSs : is_nocross s = false).
      { unfold backward_only in J. destruct (is_backward d); [|destruct J]. destruct s; try (destruct J; fail); reflexivity. }
      rewrite NSs. apply in_flat_map. exists s. auto.
    + right. destruct (is_nocross s) eqn:NSs; [|exact J]. unfold main_entries_of in J. rewrite !in_app_iff in J. destruct J as [J|[J|J]].
      * unfold backward_only in J. destruct (is_backward d); [|destruct J]. destruct s; try discriminate NSs; destruct J.
      * destruct s; try discriminate NSs; destruct J.
      * rewrite NSs in J. destruct J.
    + right. destruct (is_nocross s) eqn:NSs; [exact J|destruct J].
Qed.
(** Without the feature [backwards_compatibility] the last rule counts. *)
Theorem C72_the_last_counts : forall input spans out t r s a c,
  compat = false -> rules = a ++ s :: c -> ~ In r (s :: c) -> stands_in d x rules s r -> looked_up d r = true -> comes_first s = false ->
  trace input spans = Ok out -> In t out -> r_origin t <> Some r.
Proof.
  intros input spans out t r s a c C ER NI ST LU CF E I O.
  assert (Is : In s rules) by (rewrite ER; apply in_elt).
  destruct (stand_in_entry _ _ _ _ _ _ E I O LU ST Is) as (full & e & e' & F & Oe & R & Ie & Ier & NN & Se & Se').
  destruct F as (l1 & l2 & El & F & _). rewrite C in F.
  rewrite (trie_split a s c r ER) in El. symmetry in El.
  apply (F e'); [|exact R]. apply (in_suffix _ _ _ _ _ El).
  - rewrite in_app_iff. intros [J|J]; [apply NI; left; eapply origin_only; [apply (later_in _ _ _ J)|exact Oe]|apply NI; right; eapply later_only; eauto].
  - apply in_or_app. left. unfold later_entries. rewrite <- NN. unfold rule_entries in Ier. rewrite !in_app_iff in Ier.
    assert (NF : backward_only d (character_entries first_characters s) = []) by (unfold backward_only; destruct (is_backward d); [|reflexivity]; destruct s; try discriminate CF; reflexivity).
    rewrite NF in Ier. destruct Ier as [[]|[J|J]].
    + destruct (is_nocross s) eqn:NS; [|exact J]. unfold main_entries_of in J. rewrite !in_app_iff in J. destruct J as [J|[J|J]].
      * unfold backward_only in J. destruct (is_backward d); [|destruct J]. destruct s; try discriminate NS; destruct J.
      * destruct s; try discriminate NS; destruct J.
      * rewrite NS in J. destruct J.
    + destruct (is_nocross s) eqn:NS; [exact J|destruct J].
Qed.
End Rivals.
(** The places are those of C51. *)
Definition side_ok (x : context) (s : side) (o : option char) : Prop :=
  match s with
  | Anything => True | Edge => edge x o | Letter => a_letter_at x o | Digit => a_digit_at x o
  | LetterOrEdge => a_letter_at x o \/ edge x o
  end.
Theorem C72_places : forall x r text before behind, rule_text r = Some text ->
  (opcode_place x r before behind <->
   exists p, In p (places Forward r) /\ side_ok x (fst p) before /\ side_ok x (snd p) behind).
Proof.
  intros x r text before behind RT. destruct r; try discriminate RT; cbn [opcode_place places];
    (split; [intros H; try (eexists; split; [left; reflexivity|cbn; tauto]; fail)|
             intros (p & P & H1 & H2); cbn [In] in P; repeat match type of P with _ \/ _ => destruct P as [P|P] end; try (destruct P; fail); subst p; cbn in H1, H2; tauto]).
  - destruct H as [H1 [H2|H2]]; [exists (Edge, Edge)|exists (Edge, Letter)]; cbn; auto.
  - destruct H as [[H1|H1] H2]; [exists (Edge, Edge)|exists (Letter, Edge)]; cbn; auto.
  - destruct H as [H|H]; [exists (Letter, Anything)|exists (Anything, Letter)]; cbn; auto.
Qed.
Print Assumptions C72_displaced_in_any_order.
Print Assumptions C72_the_last_displaces.
Print Assumptions C72_the_first_stays.
Print Assumptions C72_the_last_counts.
Print Assumptions C72_places.

(** ** Examples *)
(** the last always rule counts, but the first partword and lowword rules *)
Example C72_example_orders :
  ex_run Forward (ex_letters ++ [always "ab" (b 40); always "ab" (b 41)]) (lit "ab") [] = Some [(lit "ab", b 41)] /\
  ex_run Forward (ex_letters ++ [RLowword (lit "ab") (b 40) K; RLowword (lit "ab") (b 41) K]) (lit "ab") [] = Some [(lit "ab", b 40)] /\
  ex_run Forward (ex_letters ++ [RLowword (lit "ab") (b 40) K; RWord (lit "ab") (Explicit (b 41)) K []]) (lit "ab") [] = Some [(lit "ab", b 41)] /\
  ex_run Forward (ex_letters ++ [RWord (lit "ab") (Explicit (b 41)) K []; RLowword (lit "ab") (b 40) K]) (lit "ab") [] = Some [(lit "ab", b 41)].
Proof. split; [vm_compute; reflexivity|]. split; [vm_compute; reflexivity|]. split; [vm_compute; reflexivity|]. vm_compute; reflexivity. Qed.
(** backward a contraction takes the cell of a letter *)
Example C72_example_backward :
  ex_run Backward (ex_letters ++ [always "dd" (b 3)]) (bs [3; 9]%N) [] = Some [(b 3, lit "dd"); (b 9, lit "c")] /\
  ex_run Backward (always "dd" (b 3) :: ex_letters) (bs [3; 9]%N) [] = Some [(b 3, lit "dd"); (b 9, lit "c")].
Proof. split; [vm_compute; reflexivity|]. vm_compute; reflexivity. Qed.
Example C72_example_stands_in : forall x rules k w dots,
  stands_in Backward x rules (always "dd" dots) (RLowercase (ch "b") dots k) /\
  stands_in Forward x rules (RSufword (lit "ab") (Explicit dots) k w) (RWord (lit "ab") (Explicit (b 1)) k w) /\
  looked_up Backward (RLowercase (ch "b") dots k) = true /\ displaces (always "dd" dots) = true /\ displaces (RLowercase (ch "b") dots k) = false.
Proof.
  intros x rules k w dots. split; [|split; [|auto]].
  - split; [exists dots; split; eexists _, _; (split; [split; reflexivity|reflexivity])|]. split; [intros p P; exact P|]. auto using Coq.Init.Logic.I.
    split; [reflexivity|]. split; [reflexivity|exact Coq.Init.Logic.I].
  - split; [exists (lit "ab"); split; eexists _, _; (split; [split; reflexivity|reflexivity])|]. split; [intros p [<-|[]]; left; reflexivity|].
    split; [reflexivity|]. split; [reflexivity|exact Coq.Init.Logic.I].
Qed.
(** the digits are also read from their own table: a digit's rule is used although a
    contraction has its cell *)
Theorem C72_digits_displaced_refuted :
  ex_run Backward (ex_letters ++ [RNumsign (b 60); always "dd" (b 3)]) (bs [60; 3]%N) [] = Some [(b 60, []); (b 3, lit "2")].
Proof. vm_compute. reflexivity. Qed.
(** and the definition of a character is no rule among others forward: a word rule does not
    displace it, and of a rule and a definition for one character the rule is applied in
    either order *)
Example C72_example_definitions :
  ex_run Forward (RLowword (lit "a") (b 40) K :: ex_letters) (lit "a ab") [] = Some [(lit "a", b 40); (lit " ", b 0); (lit "a", b 1); (lit "b", b 3)].
Proof. vm_compute. reflexivity. Qed.
(** the simple reading of backwards compatibility, that the first of two rules counts *)
Theorem C72_the_first_rule_counts_refuted :
  ex_run Forward (ex_letters ++ [always "ab" (b 40); always "ab" (b 41)]) (lit "ab") [] <> Some [(lit "ab", b 40)].
Proof. vm_compute. discriminate. Qed.
Print Assumptions C72_digits_displaced_refuted.
Print Assumptions C72_the_first_rule_counts_refuted.
