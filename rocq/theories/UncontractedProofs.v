From Coq Require Import Permutation.
From Verif Require Import Base BaseProofs RuleModel TranslationModel TranslationProofs TableModel TableProofs RegexpModel
  RegexpSpec PatternModel MatchProofs TrieModel TrieProofs PropTrie
  HyphenationModel HyphenationProofs LoopModel LoopProofs MultipassProofs PrimaryProofs PrimaryTrace CompileModel CompileSpec
  CompileProofs MainTable ConstraintModel ConstraintSpec ConstraintProofs IndicatorModel IndicatorProofs
  CapsSpec CapsProofs CapsFacts EmphSpec EmphProofs MainSpec StepProofs TraceSpec MainPass StepFacts TraceProofs SignSpec SetupSpec SetupProofs PropMain
  UndefinedSpec PropUndefined PropIndicators CapsEmphSpec EmphWordProofs PropCapsEmph WordSpec WordProofs RoundSpec RoundProofs UncontractedSpec.

Section Table.
Variable is_alphabetic : char -> bool.
Variable x : context.
Variable table : list rule.
Variable lower upper : char -> list char.
Variable gc gn : char.
Hypothesis U : uncontracted table lower upper gc gn.
Hypothesis EX : context_compile is_alphabetic true table = TOk x.
Notation has_cell := (has_cell table).
Notation capital_of := (capital_of table).

(** ** The characters and their cells *)
Lemma one_cell_def r k c g : one_cell r = Some (k, c, g) -> explicit_def r = [(c, [g])].
Proof.
  intros H. destruct r; try discriminate H; cbn [one_cell explicit_def] in *;
    (destruct dots as [|g0 [|g1 dots]]; try discriminate H; injection H as <- <- <-; reflexivity).
Qed.
Lemma def_one_cell r c s : In r table -> In (c, s) (explicit_def r) -> exists k g, s = [g] /\ one_cell r = Some (k, c, g).
Proof.
  intros I D. destruct (un_rules _ _ _ _ _ U r I) as [X|[([[k c'] g] & X)|[(C & c' & ->)|[(k & ->)| ->]]]]; try (destruct D; fail).
  - destruct r; try discriminate X; destruct D.
  - rewrite (one_cell_def _ _ _ _ X) in D. destruct D as [D|[]]. injection D as <- <-. eauto.
Qed.
Lemma cell_defined pre k c g : has_cell k c g -> dots_after true table pre c [g].
Proof.
  intros (r & Hr & E).
  assert (I : In (c, [g]) (explicit_defs table)) by (apply in_flat_map; exists r; rewrite (one_cell_def _ _ _ _ E); split; [exact Hr|left; reflexivity]).
  destruct (In_wins true _ _ _ I) as (v & W). pose proof (wins_In _ _ _ _ W) as Iv. apply in_flat_map in Iv. destruct Iv as (r' & Hr' & Iv).
  destruct (def_one_cell _ _ _ Hr' Iv) as (k' & g' & -> & E'). destruct (un_char _ _ _ _ _ U k k' c g g') as [<- <-]; [exists r; auto|exists r'; auto|].
  apply explicit_wins; [exact W|apply base_history_exists].
Qed.
Lemma cell_of k c g : has_cell k c g -> defs_get (x_defs x) c = Some [g].
Proof. intros H. apply (compile_defs _ _ _ _ _ _ EX). eapply cell_defined, H. Qed.
Lemma capital_letter C c : capital_of C c -> exists g, has_cell ALetter c g.
Proof.
  intros H. apply in_split in H. destruct H as (l1 & l2 & E). destruct (un_base _ _ _ _ _ U _ _ _ _ E) as ((r & g & Hr & Eg) & _).
  exists g, r. split; [rewrite E; apply in_or_app; auto|exact Eg].
Qed.
Lemma capital_facts C c : capital_of C c -> (forall k g, ~ has_cell k C g) /\ lower C = [c] /\ upper c = [C].
Proof. intros H. apply in_split in H. destruct H as (l1 & l2 & E). apply (un_base _ _ _ _ _ U _ _ _ _ E). Qed.
Lemma capital_unique C c c' : capital_of C c -> capital_of C c' -> c = c'.
Proof. intros H H'. destruct (capital_facts _ _ H) as (_ & L & _), (capital_facts _ _ H') as (_ & L' & _). congruence. Qed.
Lemma capital_same C C' c : capital_of C c -> capital_of C' c -> C = C'.
Proof. intros H H'. destruct (capital_facts _ _ H) as (_ & _ & L), (capital_facts _ _ H') as (_ & _ & L'). congruence. Qed.

(** ** Classes *)
Lemma listed_none r k cs : In r table -> listed_class r = Some (k, cs) -> False.
Proof.
  intros I L. destruct (un_rules _ _ _ _ _ U r I) as [X|[([[k' c'] g] & X)|[(C & c' & ->)|[(k' & ->)| ->]]]]; try discriminate L;
    destruct r; try discriminate X; discriminate L.
Qed.
Lemma role_class r k c g : one_cell r = Some (k, c, g) ->
  (k = ALetter <-> In (c, CLetter) (explicit_classes r)) /\ (k = ADigit <-> In (c, CLitdigit) (explicit_classes r)) /\
  ~ In (c, CUppercase) (explicit_classes r) /\ ~ In (c, CDigit) (explicit_classes r).
Proof.
  intros H. destruct r; try discriminate H; cbn [one_cell explicit_classes] in *;
    (destruct dots as [|g0 [|g1 dots]]; try discriminate H; injection H as <- <- <-; cbn [In];
     repeat split; intros H; try discriminate H; auto;
     repeat (destruct H as [H|H]; [try discriminate H; try (injection H as H); auto|]); try contradiction; try congruence).
Qed.
Lemma class_char r c : In r table -> forall k, In (c, k) (explicit_classes r) -> exists q g, one_cell r = Some (q, c, g).
Proof.
  intros I k D. destruct (un_rules _ _ _ _ _ U r I) as [X|[([[k' c'] g] & X)|[(C & c' & ->)|[(k' & ->)| ->]]]]; try (destruct D; fail).
  - destruct r; try discriminate X; destruct D.
  - rewrite X. exists k', g. f_equal. f_equal. f_equal. destruct r; try discriminate X; cbn [one_cell explicit_classes] in *;
    (destruct dots as [|g0 [|g1 dots]]; try discriminate X; injection X as <- <- <-);
      repeat (destruct D as [D|D]; [injection D as D _; auto|]); destruct D.
Qed.
Lemma litdigit_iff c : cls_has (x_chars x) CLitdigit c = true <-> exists g, has_cell ADigit c g.
Proof.
  rewrite (compile_classes _ _ _ _ _ _ EX). split.
  - intros H. inversion H as [r k' c' I1 I2 E1 E2|r k' cs c' I1 I2 I3 E1 E2|pre n c' b post s E0 E1 E2 E3|].
    + subst k' c'. destruct (class_char _ _ I1 _ I2) as (q & g & E). destruct (role_class _ _ _ _ E) as (_ & R & _). apply R in I2. subst q. exists g, r. auto.
    + exfalso. eapply listed_none; eauto.
    + exfalso. assert (I : In (RBase n c b) table) by (rewrite E0; apply in_elt).
      destruct (un_rules _ _ _ _ _ U _ I) as [X|[([[k' c0] g] & X)|[(C & c0 & X)|[(k' & X)|X]]]]; try discriminate X. injection X as -> -> ->. discriminate E2.
  - intros (g & r & Hr & E). eapply ic_defined; [exact Hr|]. apply (role_class _ _ _ _ E). reflexivity.
Qed.
Lemma uppercase_iff c : cls_has (x_chars x) CUppercase c = true <-> exists c', capital_of c c'.
Proof.
  rewrite (compile_classes _ _ _ _ _ _ EX). split.
  - intros H. inversion H as [r k' c' I1 I2 E1 E2|r k' cs c' I1 I2 I3 E1 E2|pre n c' b post s E0 E1 E2 E3|].
    + exfalso. subst k' c'. destruct (class_char _ _ I1 _ I2) as (q & g & E). apply (role_class _ _ _ _ E) in I2. exact I2.
    + exfalso. eapply listed_none; eauto.
    + assert (I : In (RBase n c b) table) by (rewrite E0; apply in_elt). exists b.
      destruct (un_rules _ _ _ _ _ U _ I) as [X|[([[k' c0] g] & X)|[(C & c0 & X)|[(k' & X)|X]]]]; try discriminate X. injection X as -> -> ->. exact I.
  - intros (c' & H). pose proof (capital_letter _ _ H) as (g & HC). apply in_split in H. destruct H as (l1 & l2 & E).
    change CUppercase with (class_from uppercase). eapply ic_base; [exact E|eapply cell_defined, HC].
Qed.
Lemma capital_is_letter C c : capital_of C c -> cls_has (x_chars x) CLetter C = true.
Proof.
  intros H. apply (compile_classes _ _ _ _ _ _ EX). pose proof (capital_letter _ _ H) as (g & HC). apply in_split in H. destruct H as (l1 & l2 & E).
  eapply ic_base_letter; [exact E|eapply cell_defined, HC|left; reflexivity].
Qed.
Lemma dots_class k g : cls_has (x_dots x) k g = true <-> exists r q c, In r table /\ one_cell r = Some (q, c, g) /\ In (c, k) (explicit_classes r).
Proof.
  rewrite (compile_dots_classes _ _ _ _ _ _ EX). split.
  - intros H. inversion H as [r k' c g' I1 I2 I3 E1 E2|cs dots kk w g' I1 I2 I3 E1 E2|pre r post k' cs c g' E0 E1 E2 E3].
    + subst k' g'. destruct (def_one_cell _ _ _ I1 I3) as (q & g' & Eg & E). injection Eg as <-. exists r, q, c. auto.
    + exfalso. destruct (un_rules _ _ _ _ _ U _ I1) as [X|[(s & X)|[(C & c0 & X)|[(k' & X)|X]]]]; discriminate X.
    + exfalso. assert (I : In r table) by (rewrite E0; apply in_elt).
      destruct (un_rules _ _ _ _ _ U _ I) as [X|[(s & X)|[(C & c0 & ->)|[(k'' & ->)| ->]]]]; try discriminate E1; destruct r; try discriminate X; discriminate E1.
  - intros (r & q & c & Hr & E & D). eapply dc_defined; [exact Hr|exact D|]. rewrite (one_cell_def _ _ _ _ E). left. reflexivity.
Qed.
Lemma letter_cell_iff g : letter_cell is_alphabetic x table g <-> exists c, has_cell ALetter c g.
Proof.
  unfold letter_cell. rewrite dots_class. split.
  - intros [(r & q & c & Hr & E & D)|(cs & dots & k & w & I & _)].
    + destruct (role_class _ _ _ _ E) as (R & _). apply R in D. subst q. exists c, r. auto.
    + exfalso. destruct (un_rules _ _ _ _ _ U _ I) as [X|[(s & X)|[(C & c0 & X)|[(k' & X)|X]]]]; discriminate X.
  - intros (c & r & Hr & E). left. exists r, ALetter, c. split; [exact Hr|]. split; [exact E|]. apply (role_class _ _ _ _ E). reflexivity.
Qed.
Lemma digit_cell_iff g : cls_has (x_dots x) CDigit g = true \/ cls_has (x_dots x) CLitdigit g = true <-> exists c, has_cell ADigit c g.
Proof.
  rewrite !dots_class. split.
  - intros [(r & q & c & Hr & E & D)|(r & q & c & Hr & E & D)]; destruct (role_class _ _ _ _ E) as (_ & R & _ & N); [destruct (N D)|].
    apply R in D. subst q. exists c, r. auto.
  - intros (c & r & Hr & E). right. exists r, ADigit, c. split; [exact Hr|]. split; [exact E|]. apply (role_class _ _ _ _ E). reflexivity.
Qed.
(** ** What the rules are not *)
Lemma kinds r : In r table -> is_nocross r = false /\ is_comp6 r = false /\ is_match r = false /\ is_context r = false.
Proof.
  intros I. destruct (un_rules _ _ _ _ _ U _ I) as [X|[(s & X)|[(C & c0 & ->)|[(k' & ->)| ->]]]]; try (cbn; auto; fail);
    destruct r; try discriminate X; cbn; auto.
Qed.
Lemma cell_shared k1 c1 k2 c2 g : has_cell k1 c1 g -> has_cell k2 c2 g -> c1 = c2 \/ (k1 = ALetter /\ k2 = ADigit) \/ (k1 = ADigit /\ k2 = ALetter).
Proof.
  intros (r1 & H1 & E1) (r2 & H2 & E2). apply in_split in H1. destruct H1 as (l1 & l2 & T). rewrite T in H2. apply in_app_or in H2. destruct H2 as [H2|[<-|H2]].
  - apply in_split in H2. destruct H2 as (a & b & ->). rewrite <- app_assoc in T. cbn [app] in T.
    destruct (un_cell _ _ _ _ _ U _ _ _ _ _ _ _ _ _ _ T E2 E1) as [->|[-> ->]]; auto.
  - left. congruence.
  - apply in_split in H2. destruct H2 as (a & b & ->).
    destruct (un_cell _ _ _ _ _ U _ _ _ _ _ _ _ _ _ _ T E1 E2) as [->|[-> ->]]; auto.
Qed.
(** ** Forward: the table of characters *)
Lemma table_piece c u : In (c, u) (character_table Forward x table) ->
  (exists k g, has_cell k c g /\ r_output u = [g]) \/ (exists b g, capital_of c b /\ has_cell ALetter b g /\ r_output u = [g]).
Proof.
  intros I. unfold character_table in I. cbn [is_backward] in I. rewrite in_app_iff, !in_flat_map in I.
  assert (P : forall f r, In (c, u) (char_pieces f r) -> exists g, In (c, g) (f r) /\ r_output u = g).
  { intros f r H. unfold char_pieces in H. apply in_map_iff in H. destruct H as ([c' g] & Eq & H). injection Eq as -> <-. exists g. auto. }
  destruct I as [(r & Hr & I)|(r & Hr & I)]; apply P in I; destruct I as (g & I & ->);
    destruct (un_rules _ _ _ _ _ U _ Hr) as [X|[([[k c0] g0] & X)|[(C & c0 & ->)|[(k' & ->)| ->]]]]; try (destruct I; fail).
  - destruct r; try discriminate X; destruct I.
  - destruct r; try (destruct I; fail); try discriminate X. cbn in X, I. destruct dots as [|g1 [|g2 dots]]; try discriminate X. injection X as <- <- <-.
    destruct I as [I|[]]. injection I as <- <-. left. exists AnOther, g1. split; [|reflexivity]. eexists. split; [exact Hr|reflexivity].
  - destruct r; try discriminate X; destruct I.
  - destruct r; try (destruct I; fail); try discriminate X; cbn in X, I; (destruct dots as [|g1 [|g2 dots]]; try discriminate X; injection X as <- <- <-;
    destruct I as [I|[]]; injection I as <- <-; left; eexists; exists g1; (split; [eexists; split; [exact Hr|reflexivity]|reflexivity])).
  - cbn [other_characters] in I. right. destruct (capital_letter _ _ Hr) as (g0 & HC). rewrite (cell_of _ _ _ HC) in I. destruct I as [I|[]]. injection I as <- <-.
    exists c0, g0. auto.
Qed.
Lemma cell_looked_up k c g : has_cell k c g -> exists u, character_lookup Forward x table true c = Some u /\ r_output u = [g].
Proof.
  intros H. unfold character_lookup.
  assert (Q : exists u, In (c, u) (character_table Forward x table)).
  { destruct H as (r & Hr & E). unfold character_table. cbn [is_backward]. exists (resolved_new [c] [g] 1 Main (Some r)). rewrite in_app_iff, !in_flat_map.
    assert (Y : In (c, [g]) (first_characters r) \/ In (c, [g]) (other_characters Forward x table r)).
    { destruct r; try discriminate E; cbn [one_cell first_characters other_characters] in *;
       (destruct dots as [|g1 [|g2 dots]]; try discriminate E; injection E as <- <- <-; cbn; auto). }
    destruct Y as [Y|Y]; [left|right]; (exists r; split; [exact Hr|]); unfold char_pieces; apply in_map_iff; exists (c, [g]); auto. }
  destruct Q as (u & Q). destruct (assoc c (character_table Forward x table)) as [v|] eqn:A.
  - exists v. split; [reflexivity|]. apply assoc_In in A. apply table_piece in A. destruct A as [(k' & g' & H' & ->)|(b & g' & CB & _)].
    + destruct (un_char _ _ _ _ _ U _ _ _ _ _ H H') as [_ ->]. reflexivity.
    + exfalso. apply (capital_facts _ _ CB) in H. exact H.
  - exfalso. exact (proj1 (assoc_None _ _) A _ Q).
Qed.
Lemma capital_looked_up C c g : capital_of C c -> has_cell ALetter c g -> exists u, character_lookup Forward x table true C = Some u /\ r_output u = [g].
Proof.
  intros H HC. unfold character_lookup.
  assert (Q : exists u, In (C, u) (character_table Forward x table)).
  { unfold character_table. cbn [is_backward]. exists (resolved_new [C] [g] 1 Main (Some (RBase uppercase C c))). rewrite in_app_iff, !in_flat_map.
    right. eexists. split; [exact H|]. unfold char_pieces. apply in_map_iff. exists (C, [g]). split; [reflexivity|].
    cbn [other_characters]. rewrite (cell_of _ _ _ HC). left. reflexivity. }
  destruct Q as (u & Q). destruct (assoc C (character_table Forward x table)) as [v|] eqn:A.
  - exists v. split; [reflexivity|]. apply assoc_In in A. apply table_piece in A. destruct A as [(k' & g' & H' & ->)|(b & g' & CB & HB & ->)].
    + exfalso. apply (capital_facts _ _ H) in H'. exact H'.
    + rewrite <- (capital_unique _ _ _ H CB) in HB. destruct (un_char _ _ _ _ _ U _ _ _ _ _ HC HB) as [_ ->]. reflexivity.
  - exfalso. exact (proj1 (assoc_None _ _) A _ Q).
Qed.
End Table.

(** ** The signs of a text *)
Section Signs.
Variable is_alphabetic : char -> bool.
Variable read_dictionary : str -> tres hyph.
Variable d : direction.
Variable x : context.
Variable table : list rule.
Variable lower upper : char -> list char.
Variable sort : list event -> res (list event).
Variable gc gn : char.
Variable m : main_table.
Hypothesis U : uncontracted table lower upper gc gn.
Hypothesis EX : context_compile is_alphabetic true table = TOk x.
Hypothesis B : main_built is_alphabetic true read_dictionary d x table m.
Hypothesis DR : dictionaries_read read_dictionary.
Hypothesis SR : sort_rearranges sort.

Definition digit_at (input : str) (p : nat) : Prop := exists c g, nth_error input p = Some c /\ has_cell table ADigit c g.
Definition capital_at (input : str) (p : nat) : Prop := exists C c, nth_error input p = Some C /\ capital_of table C c.

Lemma rule_signs r dots : In r table -> sign_dots r = Some dots -> (exists k, r = RCapsletter [gc] k /\ dots = [gc]) \/ (r = RNumsign [gn] /\ dots = [gn]).
Proof.
  intros I S. destruct (un_rules _ _ _ _ _ U _ I) as [X|[(s & X)|[(C & c0 & ->)|[(k' & ->)| ->]]]]; try discriminate S;
    try (destruct r; try discriminate X; discriminate S).
  - left. exists k'. injection S as <-. auto.
  - right. injection S as <-. auto.
Qed.
Lemma last_found {A} (f : rule -> option A) l : (exists r a, In r l /\ f r = Some a) -> exists r a, last_with l f r a.
Proof.
  induction l as [|r l IH] using rev_ind; intros (q & a & H & E); [destruct H|].
  destruct (f r) as [b|] eqn:Fr; [exists r, b, l, []; split; [reflexivity|]; split; [exact Fr|intros z []]|].
  apply in_app_or in H. destruct H as [H|[<-|[]]]; [|congruence]. destruct IH as (r1 & a1 & l1 & l2 & -> & F1 & N1); [eauto|].
  exists r1, a1, l1, (l2 ++ [r]). split; [rewrite <- app_assoc; reflexivity|]. split; [exact F1|]. intros z Hz. apply in_app_or in Hz.
  destruct Hz as [Hz|[<-|[]]]; auto.
Qed.
Lemma last_in {A} (f : rule -> option A) r a : last_with table f r a -> In r table /\ f r = Some a.
Proof. intros (l1 & l2 & -> & F & _). split; [apply in_elt|exact F]. Qed.
Lemma no_sign f o : sign_is table f o -> (forall r dots, In r table -> f r = Some dots -> False) -> o = None.
Proof. destruct o as [t|]; [|reflexivity]. intros (r & dots & L & _) N. destruct (last_in _ _ _ L) as [I F]. destruct (N r dots I F). Qed.
Ltac by_rules := let r := fresh in let g := fresh in let I := fresh in let F := fresh in let X := fresh in
  intros r g I F; destruct (un_rules _ _ _ _ _ U _ I) as [X|[(? & X)|[(? & ? & ->)|[(? & ->)| ->]]]]; try discriminate F; destruct r; try discriminate X; discriminate F.

Lemma in_number_iff u input p : number_chars x table u -> (in_number u input p <-> digit_at input p).
Proof.
  intros NC.
  assert (E0 : forall c, ~ In c (nu_extra u)).
  { intros c H. apply (nc_extra _ _ _ NC) in H. destruct H as (r & cs & L & _). apply last_in in L. destruct L as [I F].
    revert r cs I F. by_rules. }
  assert (M0 : forall c, ~ In c (nu_mid u)).
  { intros c H. apply (nc_mid _ _ _ NC) in H. destruct H as [(dots & I)|(cs & dots & k & I & _)];
      destruct (un_rules _ _ _ _ _ U _ I) as [X|[(s & X)|[(C & c0 & X)|[(k' & X)|X]]]]; discriminate X. }
  assert (D : forall q, at_in input q (nu_digits u) <-> digit_at input q).
  { intros q. unfold at_in, digit_at. split.
    - intros (c & E & I). apply (nc_digits _ _ _ NC), (litdigit_iff _ _ _ _ _ _ _ U EX) in I. destruct I as (g & I). eauto.
    - intros (c & g & E & I). exists c. split; [exact E|]. apply (nc_digits _ _ _ NC), (litdigit_iff _ _ _ _ _ _ _ U EX). eauto. }
  split.
  - intros (s & L & A & G). destruct (Nat.eq_dec s p) as [->|N]; [apply D, A|]. destruct (G p) as [H|[(c & _ & H)|(_ & (c & _ & H) & _)]]; [lia|apply D, H|destruct (E0 _ H)|destruct (M0 _ H)].
  - intros H. exists p. split; [lia|]. split; [apply D, H|]. intros q Q. lia.
Qed.
Lemma numbers_start u input p : number_chars x table u -> (number_starts u input p <-> digit_at input p /\ (p = 0 \/ ~ digit_at input (p - 1))).
Proof.
  intros NC. unfold number_starts. rewrite (in_number_iff u input (p - 1) NC).
  assert (D : at_in input p (nu_digits u) <-> digit_at input p).
  { unfold at_in, digit_at. split.
    - intros (c & E & I). apply (nc_digits _ _ _ NC), (litdigit_iff _ _ _ _ _ _ _ U EX) in I. destruct I as (g & I). eauto.
    - intros (c & g & E & I). exists c. split; [exact E|]. apply (nc_digits _ _ _ NC), (litdigit_iff _ _ _ _ _ _ _ U EX). eauto. }
  rewrite D. reflexivity.
Qed.
Lemma capital_iff u input p : caps_rules x table u -> (capital u input p <-> capital_at input p).
Proof.
  intros CR. unfold capital, letter, at_char, capital_at. split.
  - intros (_ & H). destruct (nth_error input p) as [c|] eqn:E; [|discriminate H].
    apply mem_In, (cr_upper _ _ _ CR), (uppercase_iff _ _ _ _ _ _ _ U EX) in H. destruct H as (c' & H). exists c, c'. auto.
  - intros (C & c & E & H). rewrite E. rewrite !mem_In. split.
    + apply (cr_letters _ _ _ CR), (capital_is_letter _ _ _ _ _ _ _ U EX _ _ H).
    + apply (cr_upper _ _ _ CR), (uppercase_iff _ _ _ _ _ _ _ U EX). eauto.
Qed.
(** only capsletter signs *)
Lemma only_letter_signs u input parts ms : caps_rules x table u -> parts_marked u input parts ms ->
  Forall (fun k => exists o, k = LetterSign o) ms.
Proof.
  intros CR PM.
  assert (B1 : ui_begword u = None) by (apply (no_sign _ _ (cr_begword _ _ _ CR)); by_rules).
  assert (B2 : ui_beg u = None) by (apply (no_sign _ _ (cr_beg _ _ _ CR)); by_rules).
  assert (B3 : ui_begphrase u = None) by (apply (no_sign _ _ (cr_begphrase _ _ _ CR)); by_rules).
  assert (SM : forall o c n k, stretch_marked u input o c n k -> Forall (fun k => exists o, k = LetterSign o) k).
  { intros o c n k H. destruct H; try congruence; try constructor; eauto. apply Forall_forall. intros z Hz. apply in_map_iff in Hz. destruct Hz as (q & <- & _). eauto. }
  induction PM as [|y l k ms P PM IH]; [constructor|]. apply Forall_app. split; [|exact IH]. destruct P; try congruence.
  - match goal with H : stretches_marked _ _ _ _ |- _ => induction H end; [constructor|]. apply Forall_app. split; [eapply SM; eauto|assumption].
  - match goal with H : words_marked _ _ _ _ |- _ => clear - SM H; induction H end; [constructor|]. apply Forall_app. split; [eapply SM; eauto|assumption].
Qed.
Lemma letter_marks t p : forall ms from, Forall (fun k => exists o, k = LetterSign o) ms -> laid_out from ms ->
  forall u, ui_letter u = Some t ->
  (In (LetterSign p) ms -> map snd (filter (fun y => Nat.eqb (fst y) p) (flat_map (signs u) ms)) = [t]) /\
  (~ In (LetterSign p) ms -> map snd (filter (fun y => Nat.eqb (fst y) p) (flat_map (signs u) ms)) = []).
Proof.
  induction ms as [|k ms IH]; intros from F L u UL; [split; [intros []|reflexivity]|].
  inversion F as [|k' ms' (o & ->) F' E1]. subst. cbn [laid_out from_to fst snd] in L. destruct L as [L1 L2].
  cbn [flat_map signs]. rewrite UL. cbn [put app filter fst]. destruct (IH _ F' L2 u UL) as [IH1 IH2].
  destruct (Nat.eqb_spec o p) as [->|N].
  - split; [|intros H; exfalso; apply H; left; reflexivity]. intros _. cbn [map snd]. rewrite IH2; [reflexivity|].
    assert (G : forall l n, Forall (fun k => exists o, k = LetterSign o) l -> p < n -> laid_out n l -> ~ In (LetterSign p) l).
    { clear. induction l as [|k l IH]; intros n Fl Hn Ln; [intros []|]. cbn [laid_out] in Ln. destruct Ln as [L1 L2].
      inversion Fl as [|k' l' (o & ->) Fl' E1]. subst. cbn in L1, L2. intros [H|H]; [injection H as ->; lia|].
      apply (IH (S o)); auto; lia. }
    apply (G ms (S p)); auto.
  - split.
    + intros [H|H]; [congruence|]. apply IH1, H.
    + intros H. apply IH2. intros H'. apply H. right. exact H'.
Qed.

Variable input : str.
Variable out : list resolved.
Variable sp : list span.
Variable em caps : list placed.
Variable ind : list (list resolved).
Variable lim : pos_flags.
Variable ts : list step.
Hypothesis E : main_trace lower upper sort m input [] = Ok out.
Hypothesis T : traced is_alphabetic true read_dictionary d x table lower upper sort m input [] sp em caps ind lim ts out.
Lemma signs_cells p : In p (stops 0 ts) -> exists nn cc, flat_map r_output (nth p ind []) = nn ++ cc /\
  (digit_at input p /\ (p = 0 \/ ~ digit_at input (p - 1)) -> nn = [gn]) /\
  (~ (digit_at input p /\ (p = 0 \/ ~ digit_at input (p - 1))) -> nn = []) /\
  (capital_at input p -> cc = [gc]) /\ (~ capital_at input p -> cc = []).
Proof.
  intros ST. pose proof (signs_at_positions _ _ _ _ _ _ _ _ _ _ B _ _ _ _ _ _ _ _ _ T p) as SP.
  assert (EB : existsb (Nat.eqb p) (stops 0 ts) = true) by (apply existsb_exists; exists p; split; [exact ST|apply Nat.eqb_refl]).
  rewrite EB in SP. rewrite <- SP.
  assert (BD : boundary out p) by (eapply boundary_stops; [exact B|exact T|exact ST]).
  rewrite (C26_signs_of_a_position _ _ _ _ _ _ lower upper sort m B DR SR _ _ _ E p).
  assert (RS : forall t, In t (signs_put out p) -> exists r dots, In r table /\ sign_dots r = Some dots /\ t = sign dots r).
  { intros t Ht. rewrite SP in Ht. destruct (nth_in_or_default p ind []) as [I|E0]; [|rewrite E0 in Ht; destruct Ht].
    exact (tc_signs _ _ _ _ _ _ _ _ _ _ _ _ _ _ _ _ _ _ _ T _ t I Ht). }
  assert (NF : forall f, f <> Number -> f <> Capitals -> signs_of f out p = []).
  { intros f N1 N2. unfold signs_of. destruct (filter (of_family f) (signs_put out p)) as [|t l] eqn:EF; [reflexivity|]. exfalso.
    assert (I : In t (filter (of_family f) (signs_put out p))) by (rewrite EF; left; reflexivity). apply filter_In in I. destruct I as [I O].
    destruct (RS t I) as (r & dots & Hr & SD & ->). unfold of_family in O. cbn [sign resolved_new r_origin] in O.
    destruct (rule_signs r dots Hr SD) as [(k & -> & _)|[-> _]]; cbn in O; destruct f; try discriminate O; congruence. }
  cbn [flat_map]. rewrite (NF Computer), (NF Emphasis), (NF Letter), (NF Nocontract) by discriminate. cbn [app]. rewrite app_nil_r, flat_map_app.
  exists (flat_map r_output (signs_of Number out p)), (flat_map r_output (signs_of Capitals out p)). split; [reflexivity|].
  destruct (C25_number_signs _ _ _ _ _ _ lower upper sort m B DR SR _ _ _ E) as (u & NC & NS). destruct (NS p BD) as [NL NI].
  destruct (C27_capital_signs _ _ _ _ _ _ lower upper sort m B DR SR _ _ _ E) as (v & parts & ms & CR & _ & PM & CS & MR & LO & MC).
  pose proof (numbers_start u input p NC) as NST.
  assert (NO : forall t, In t (signs_of Number out p) -> r_output t = [gn] /\ number_starts u input p).
  { intros t Ht. apply NI in Ht. destruct Ht as [(r & dots & L & -> & H)|(r & dots & r' & dots' & r'' & cs & c & _ & L & _)].
    - apply last_in in L. destruct L as [I F]. destruct (rule_signs r dots I) as [(k & -> & ->)|[-> ->]]; [destruct r; try discriminate F; exact F|discriminate F|]. split; [reflexivity|exact H].
    - exfalso. apply last_in in L. destruct L as [I F]. revert r dots I F. by_rules. }
  split; [|split].
  - intros H. apply NST in H. destruct (last_found numsign table) as (r & dots & L); [do 2 eexists; split; [exact (un_numsign _ _ _ _ _ U)|reflexivity]|].
    assert (I : In (sign dots r) (signs_of Number out p)) by (apply NI; left; exists r, dots; auto).
    destruct (signs_of Number out p) as [|t [|t' l]]; [destruct I| |cbn in NL; lia]. cbn [flat_map]. rewrite app_nil_r.
    apply NO. left. reflexivity.
  - intros H. destruct (signs_of Number out p) as [|t l]; [reflexivity|]. exfalso. apply H, NST. apply (NO t). left. reflexivity.
  - assert (UL : exists t, ui_letter v = Some t /\ r_output t = [gc]).
    { pose proof (cr_letter _ _ _ CR) as S1. destruct (ui_letter v) as [t|]; cbn in S1.
      - destruct S1 as (r & dots & L & ->). apply last_in in L. destruct L as [I F]. exists (sign dots r). split; [reflexivity|].
        destruct (rule_signs r dots I) as [(k & -> & ->)|[-> ->]]; [destruct r; try discriminate F; exact F|reflexivity|discriminate F].
      - exfalso. destruct (un_capsletter _ _ _ _ _ U) as (k & I). specialize (S1 _ I). discriminate S1. }
    destruct UL as (t & UL & OT). pose proof (only_letter_signs v input parts ms CR PM) as OL. rewrite (CS p BD).
    destruct (letter_marks t p ms 0 OL LO v UL) as [L1 L2].
    assert (Q : In (LetterSign p) ms <-> capital_at input p).
    { rewrite <- (capital_iff v input p CR). split.
      - intros I. rewrite Forall_forall in MR. specialize (MR _ I). unfold mark_right in MR. cbn [from_to] in MR. destruct MR as (_ & _ & MR & _). exact MR.
      - intros H. assert (CM : can_mark v) by (left; rewrite UL; discriminate). destruct (MC CM p H) as (k & Ik & Hk). rewrite Forall_forall in OL. destruct (OL k Ik) as (o & ->).
        cbn in Hk. replace p with o by lia. exact Ik. }
    split.
    + intros H. rewrite L1 by (apply Q, H). cbn. rewrite OT. reflexivity.
    + intros H. rewrite L2; [reflexivity|]. intros I. apply H, Q, I.
Qed.
End Signs.

(** ** Forward *)
Section Forward.
Variable is_alphabetic : char -> bool.
Variable read_dictionary : str -> tres hyph.
Variable x : context.
Variable table : list rule.
Variable lower upper : char -> list char.
Variable sort : list event -> res (list event).
Variable gc gn : char.
Variable m : main_table.
Hypothesis U : uncontracted table lower upper gc gn.
Hypothesis EX : context_compile is_alphabetic true table = TOk x.
Hypothesis B : main_built is_alphabetic true read_dictionary Forward x table m.
Hypothesis DR : dictionaries_read read_dictionary.
Hypothesis SR : sort_rearranges sort.
Notation src := (rule_sources true Forward x table lower).

Lemma no_nocross d rest prev u : ~ by_nocross (rule_sources true d x table lower) rest prev u.
Proof.
  intros (full & a & F & _). apply in_force_in in F. unfold nocross_entries in F. apply in_flat_map in F. destruct F as (r & Hr & F).
  destruct (kinds _ _ _ _ _ U r Hr) as (N & _). rewrite N in F. destruct F.
Qed.
Lemma no_found d input a u : ~ found (rule_sources true d x table lower) input a u.
Proof.
  intros [H|(e & _ & H)]; destruct H as (p & Hp & _); apply in_flat_map in Hp; destruct Hp as (r & Hr & Hp);
    destruct (kinds _ _ _ _ _ U r Hr) as (_ & _ & M & C).
  - apply match_entry_rule in Hp. destruct Hp as (_ & M' & _). congruence.
  - apply context_entry_rule in Hp. destruct Hp as (_ & M' & _). congruence.
Qed.
Lemma no_comp6 d rest prev u : ~ by_comp6 (rule_sources true d x table lower) rest prev u.
Proof.
  intros (full & q & IF & _). apply in_force_in, comp6_entry_rule in IF. destruct IF as (r' & Hr' & _ & X).
  destruct (kinds _ _ _ _ _ U r' Hr') as (_ & X' & _). congruence.
Qed.
Lemma no_entries : main_entries Forward x table = [].
Proof.
  destruct (main_entries Forward x table) as [|a l] eqn:EE; [reflexivity|]. exfalso.
  assert (I : In a (main_entries Forward x table)) by (rewrite EE; left; reflexivity).
  unfold main_entries in I. rewrite in_app_iff, !in_flat_map in I. destruct I as [(r & _ & I)|(r & Hr & I)]; [destruct I|].
  unfold main_entries_of in I. cbn [backward_only is_backward app] in I.
  destruct (un_rules _ _ _ _ _ U _ Hr) as [X|[(s & X)|[(C & c0 & ->)|[(k' & ->)| ->]]]];
    try (destruct r; try discriminate X); cbn in I; try (destruct I; fail); try (destruct (nocross k'); destruct I).
Qed.
Lemma nothing_available lim input ts u : ~ available src Forward lim input ts u.
Proof.
  intros H. unfold available in H. destruct (flag_at k_comp6 lim (reached ts)); [exact (no_comp6 _ _ _ _ H)|].
  destruct H as (_ & [(X & _)|(Of & _)]); [discriminate|]. destruct Of as [Of|[(Of & _)|(b' & c' & v' & _ & Of & _)]];
    [|eapply no_found, Of|eapply no_found, Of]. destruct Of as (full & q & IF & _). apply in_force_in in IF. rewrite no_entries in IF. destruct IF.
Qed.
Lemma skipn_head {A} (l : list A) : forall n c r, skipn n l = c :: r -> nth_error l n = Some c /\ skipn (S n) l = r.
Proof.
  intros n. revert l. induction n as [|n IH]; intros [|y l] c r H; try discriminate H.
  - injection H as -> ->. auto.
  - apply IH. exact H.
Qed.
Lemma char_steps lim text ts : derivation src Forward lim text ts ->
  reached ts = length ts /\ forall i h u, nth_error ts i = Some (h, u) -> h = ByFallback /\ r_length u = 1 /\
    exists c, nth_error text i = Some c /\ by_character src c u.
Proof.
  induction 1 as [|ts [h u] D IH Bst].
  - split; [reflexivity|]. intros i h u H. destruct i; discriminate.
  - destruct IH as [R IH].
    assert (Q : h = ByFallback /\ r_length u = 1 /\ exists c, nth_error text (length ts) = Some c /\ by_character src c u).
    { destruct h; cbn [best] in Bst.
      - destruct Bst as ((H & _) & _). destruct (no_nocross _ _ _ _ H).
      - destruct Bst as (H & _). destruct (nothing_available _ _ _ _ H).
      - destruct Bst as ((c & r & El & H) & _). split; [reflexivity|]. split.
        + apply (character_facts true read_dictionary Forward x table _ (mb_rules _ _ _ _ _ _ _ B)) in H. destruct H as [(_ & H & _) _]. exact H.
        + exists c. split; [|exact H]. rewrite <- R. unfold left in El. apply (skipn_head _ _ _ _ El). }
    split.
    + rewrite reached_app, reached_one, app_length. cbn [snd length]. destruct Q as (_ & L & _). lia.
    + intros i h' u' H. destruct (Nat.lt_ge_cases i (length ts)) as [L|L].
      * rewrite nth_error_app1 in H by exact L. eapply IH, H.
      * rewrite nth_error_app2 in H by exact L. destruct (i - length ts) as [|n] eqn:En; [|destruct n; discriminate H].
        injection H as <- <-. replace i with (length ts) by lia. exact Q.
Qed.

Variable text : str.
Variable out : list resolved.
Variable sp : list span.
Variable em caps : list placed.
Variable ind : list (list resolved).
Variable lim : pos_flags.
Variable ts : list step.
Hypothesis E : main_trace lower upper sort m text [] = Ok out.
Hypothesis T : traced is_alphabetic true read_dictionary Forward x table lower upper sort m text [] sp em caps ind lim ts out.
Lemma written_cells : forall ts2 ts1 dots after, ts = ts1 ++ ts2 ->
  (after = true -> length ts1 <> 0 /\ digit_at table text (length ts1 - 1)) ->
  (after = false -> length ts1 = 0 \/ ~ digit_at table text (length ts1 - 1)) ->
  spelt_out table gc gn after (skipn (length ts1) text) dots ->
  flat_map r_output (written upper Forward lim ind (length ts1) true ts2) = dots.
Proof.
  destruct (char_steps lim text ts) as [RT CS]; [apply T|].
  induction ts2 as [|[h u] ts2 IH]; intros ts1 dots after Ets A1 A2 SO.
  - assert (EL : length text = length ts1).
    { destruct (tc_end _ _ _ _ _ _ _ _ _ _ _ _ _ _ _ _ _ _ _ T) as (EN & _). rewrite RT, Ets, app_nil_r in EN. congruence. }
    rewrite <- EL, skipn_all in SO. assert (dots = []) as -> by (inversion SO; reflexivity). clear SO. cbn [written]. rewrite app_nil_r.
    destruct (signs_cells _ _ _ _ _ _ _ _ _ _ _ U EX B DR SR text out sp em caps ind lim ts E T (length ts1)) as (nn & cc & -> & _ & N & _ & C).
    { apply stops_spec. exists ts1, []. split; [exact Ets|]. rewrite Ets, app_nil_r in RT. cbn. congruence. }
    assert (NN : forall c, nth_error text (length ts1) = Some c -> False).
    { intros c H. assert (X : nth_error text (length ts1) <> None) by congruence. apply nth_error_Some in X. lia. }
    rewrite N, C; [reflexivity| |].
    + intros (z & z' & H & _). exact (NN _ H).
    + intros ((z & z' & H & _) & _). exact (NN _ H).
  - assert (Lt : reached ts1 = length ts1 /\ nth_error ts (length ts1) = Some (h, u)).
    { split; [|rewrite Ets, nth_error_app2, Nat.sub_diag by lia; reflexivity].
      assert (G : forall l, (forall i h u, nth_error l i = Some (h, u) -> r_length u = 1) -> reached l = length l).
      { clear. induction l as [|[h' u'] l IHl]; intros H; [reflexivity|]. change (r_length u' + reached l = S (length l)).
        rewrite (H 0 h' u' eq_refl). cbn [plus]. f_equal. apply IHl. intros i h0 u0 Hi. apply (H (S i) h0 u0 Hi). }
      apply G. intros i h0 u0 Hi. apply (CS i h0 u0). rewrite Ets, nth_error_app1; [exact Hi|]. apply nth_error_Some. intros X. pose proof (eq_trans (eq_sym Hi) X) as Y. discriminate Y. }
    destruct Lt as [RL NT]. destruct (CS _ _ _ NT) as (-> & LU & c & EC & BC).
    destruct (signs_cells _ _ _ _ _ _ _ _ _ _ _ U EX B DR SR text out sp em caps ind lim ts E T (length ts1)) as (nn & cc & Es & N1 & N2 & C1 & C2).
    { apply stops_spec. exists ts1, ((ByFallback, u) :: ts2). split; [exact Ets|]. cbn. congruence. }
    cbn [written shown snd]. rewrite flat_map_app, Es. cbn [flat_map]. rewrite LU. change (Nat.ltb 0 1) with true.
    assert (SK : skipn (length ts1) text = c :: skipn (S (length ts1)) text).
    { clear -EC. revert EC. generalize (length ts1). intros n. revert text. induction n as [|n IH]; intros [|y l] H; try discriminate H.
      - injection H as ->. reflexivity.
      - cbn [skipn]. apply IH. exact H. }
    assert (NX : forall dots' after', (after' = true -> digit_at table text (length ts1)) -> (after' = false -> ~ digit_at table text (length ts1)) ->
      spelt_out table gc gn after' (skipn (S (length ts1)) text) dots' ->
      flat_map r_output (written upper Forward lim ind (length ts1 + 1) true ts2) = dots').
    { intros dots' after' X1 X2 X3. specialize (IH (ts1 ++ [(ByFallback, u)]) dots' after'). rewrite app_length in IH. cbn [length] in IH.
      apply IH.
      - rewrite <- app_assoc. exact Ets.
      - intros Ha. split; [lia|]. replace (length ts1 + 1 - 1) with (length ts1) by lia. auto.
      - intros Ha. right. replace (length ts1 + 1 - 1) with (length ts1) by lia. auto.
      - rewrite Nat.add_1_r. exact X3. }
    assert (LK : forall v, character_lookup Forward x table true c = Some v -> u = v).
    { intros v H. cbn [by_character rule_sources] in BC. unfold character_offers in BC. rewrite H in BC. exact BC. }
    assert (DG : forall k g, has_cell table k c g -> k <> ADigit -> ~ digit_at table text (length ts1)).
    { intros k g H Nk (c' & g' & E' & H'). rewrite EC in E'. injection E' as <-. destruct (un_char _ _ _ _ _ U _ _ _ _ _ H H'). congruence. }
    assert (DY : forall g, has_cell table ADigit c g -> digit_at table text (length ts1)).
    { intros g H. exists c, g. auto. }
    assert (CN : forall k g, has_cell table k c g -> ~ capital_at table text (length ts1)).
    { intros k g H (C & b & E' & H'). rewrite EC in E'. injection E' as <-. apply (capital_facts _ _ _ _ _ U _ _ H') in H. exact H. }
    rewrite SK in SO. inversion SO as [|af k c' g tx dt H Nk SO' X1 X2 X3|af C b g tx dt H H' SO' X1 X2 X3|c' g tx dt H SO' X1 X2 X3|c' g tx dt H SO' X1 X2 X3]; subst.
    + destruct (cell_looked_up _ _ _ _ _ _ _ U EX _ _ _ H) as (v & Hv & Ov). apply LK in Hv. subst v. rewrite N2, C2, Ov.
      * cbn [app]. f_equal. apply (NX dt false); [discriminate|intros _; eapply DG; eauto|exact SO'].
      * eapply CN, H.
      * intros [X _]. eapply DG; eauto.
    + destruct (capital_looked_up _ _ _ _ _ _ _ U EX _ _ _ H H') as (v & Hv & Ov). apply LK in Hv. subst v.
      assert (ND : ~ digit_at table text (length ts1)).
      { intros (c' & g' & E' & Hd). rewrite EC in E'. injection E' as <-. apply (capital_facts _ _ _ _ _ U _ _ H) in Hd. exact Hd. }
      rewrite N2, C1, Ov.
      * cbn [app]. f_equal. f_equal. apply (NX dt false); [discriminate|intros _; exact ND|exact SO'].
      * exists c, b. auto.
      * intros [X _]. exact (ND X).
    + destruct (cell_looked_up _ _ _ _ _ _ _ U EX _ _ _ H) as (v & Hv & Ov). apply LK in Hv. subst v. rewrite N1, C2, Ov.
      * cbn [app]. f_equal. f_equal. apply (NX dt true); [intros _; eapply DY, H|discriminate|exact SO'].
      * eapply CN, H.
      * split; [eapply DY, H|]. apply A2. reflexivity.
    + destruct (cell_looked_up _ _ _ _ _ _ _ U EX _ _ _ H) as (v & Hv & Ov). apply LK in Hv. subst v. rewrite N2, C2, Ov.
      * cbn [app]. f_equal. apply (NX dt true); [intros _; eapply DY, H|discriminate|exact SO'].
      * eapply CN, H.
      * intros [_ [X|X]]; destruct (A1 eq_refl) as [Y1 Y2]; [exact (Y1 X)|exact (X Y2)].
Qed.
Lemma forward_cells dots : spelt_out table gc gn false text dots -> flat_map r_output out = dots.
Proof.
  intros SO. rewrite (tc_out _ _ _ _ _ _ _ _ _ _ _ _ _ _ _ _ _ _ _ T).
  apply (written_cells ts [] dots false); [reflexivity|discriminate|auto|exact SO].
Qed.
End Forward.
