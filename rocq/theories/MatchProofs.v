(** Compiled match patterns do what MatchSpec.v says. *)
From Verif Require Import Base BaseProofs RuleModel TranslationModel TableModel TableProofs RegexpModel RegexpSpec RegexpCorrect
  PatternModel OperandModel OperandProofs OperandProofs2 UnescapeProofs TestSpec PatternProofs MatchSpec.

Section Compiled.
Variable lower : char -> list char.
Variable ctx : classes.
Variable env : N -> option N.
Variable at_start : bool.
Variable input : str.
Notation Mat := (Mat lower env at_start input).
Notation members := (members ctx).
Notation pat_rel := (pat_rel members at_start input).
Notation seq_rel := (seq_rel).

(** the pattern matches the spans of the relation and sets no capture *)
Definition means (r : regexp) (A : rel) : Prop :=
  forall i c j c', Mat (as_compiled r) i c j c' <-> c' = c /\ A i j.

Lemma means_ext r (A B : rel) : (forall i j, A i j <-> B i j) -> means r A -> means r B.
Proof. intros H M i c j c'. rewrite (M i c j c'), H. tauto. Qed.
Lemma means_here r (P : nat -> Prop) :
  as_compiled r = r -> (forall i c j c', Mat r i c j c' <-> c' = c /\ j = i /\ P i) -> means r (here P).
Proof. intros E H i c j c'. rewrite E, H. reflexivity. Qed.
Lemma means_single R P : single lower env at_start input R P -> means R (one_char input P).
Proof. intros [E H] i c j c'. rewrite E, H. reflexivity. Qed.
Lemma means_empty : means REmpty (here (fun _ => True)).
Proof.
  apply means_here; [reflexivity|]. intros i c j c'. split.
  - intros M. inversion M; subst. auto.
  - intros (-> & -> & _). constructor.
Qed.
Lemma means_never (A : rel) : (forall i j, ~ A i j) -> means RNever A.
Proof. intros H i c j c'. split; [intros M; inversion M|intros [_ K]; destruct (H _ _ K)]. Qed.
Lemma means_anchor s : means (boundary_anchor s) (here (fun i => polar false (boundary at_start input s i))).
Proof.
  destruct s; (apply means_here; [reflexivity|]); intros i c j c'; cbn [boundary_anchor boundary]; split.
  - intros M. inversion M; subst. split; [reflexivity|split; [reflexivity|assumption]].
  - intros (-> & -> & HS). constructor. exact HS.
  - intros M. inversion M; subst. split; [reflexivity|split; [reflexivity|first [assumption|reflexivity]]].
  - intros (-> & -> & HS). constructor. exact HS.
Qed.
Lemma means_nanchor s r : negate (boundary_anchor s) = Some r ->
  means r (here (fun i => polar true (boundary at_start input s i))).
Proof.
  intros E. destruct s; injection E as <-; (apply means_here; [reflexivity|]); intros i c j c'; cbn [boundary]; split.
  - intros M. inversion M; subst. split; [reflexivity|split; [reflexivity|first [assumption|reflexivity]]].
  - intros (-> & -> & HS). constructor. exact HS.
  - intros M. inversion M; subst. split; [reflexivity|split; [reflexivity|first [assumption|reflexivity]]].
  - intros (-> & -> & HS). constructor. exact HS.
Qed.
Lemma means_either a b A B : means a A -> means b B -> means (REither a b) (either_rel A B).
Proof.
  intros HA HB i c j c'. cbn [as_compiled]. split.
  - intros M. inversion M; subst.
    + match goal with K : Mat _ _ _ _ _ |- _ => apply HA in K; unfold either_rel; tauto end.
    + match goal with K : Mat _ _ _ _ _ |- _ => apply HB in K; unfold either_rel; tauto end.
  - intros [-> [K|K]]; [apply M_left, HA|apply M_right, HB]; auto.
Qed.
Lemma means_optional a A : means a A -> means (ROptional a) (either_rel A (here (fun _ => True))).
Proof.
  intros HA i c j c'. cbn [as_compiled]. split.
  - intros M. inversion M; subst.
    + match goal with K : Mat _ _ _ _ _ |- _ => apply HA in K; unfold either_rel; tauto end.
    + split; [reflexivity|]. right. split; auto.
  - intros [-> [K|[-> _]]]; [apply M_opt_some, HA; auto|apply M_opt_none].
Qed.
Lemma means_concat a b A B : means a A -> means b B -> means (RConcat a b) (then_rel A B).
Proof.
  intros HA HB i c j c'. cbn [as_compiled]. split.
  - intros M. inversion M; subst.
    match goal with K1 : Mat (as_compiled a) _ _ _ _, K2 : Mat (as_compiled b) _ _ _ _ |- _ =>
      apply HA in K1; apply HB in K2; destruct K1 as [-> K1'], K2 as [-> K2'] end.
    split; [reflexivity|]. eexists; eauto.
  - intros [-> (k & K1 & K2)]. apply M_concat with (j := k) (c' := c); [apply HA; auto|apply HB; auto].
Qed.
Lemma means_exactly a A : means a A -> forall n, means (RRepeatExactly n a) (times_rel n A).
Proof.
  intros HA. induction n as [|n IH]; intros i c j c'; cbn [as_compiled times_rel].
  - split.
    + intros M. inversion M; subst. split; [reflexivity|split; auto].
    + intros [-> [-> _]]. constructor.
  - split.
    + intros M. inversion M; subst.
      match goal with K1 : Mat (as_compiled a) _ _ _ _, K2 : Mat (RRepeatExactly n _) _ _ _ _ |- _ =>
        apply HA in K1; apply (IH _ _ _ _) in K2; destruct K1 as [-> K1'], K2 as [-> K2'] end.
      split; [reflexivity|]. eexists; eauto.
    + intros [-> (k & K1 & K2)]. apply M_exactly_S with (j := k) (c' := c); [apply HA; auto|apply IH; auto].
Qed.
Lemma means_star a A : means a A -> means (RZeroOrMore a) (fun i j => exists n, times_rel n A i j).
Proof.
  intros HA i c j c'. cbn [as_compiled]. split.
  - intros M. inversion M; subst.
    match goal with K : Mat (RRepeatExactly ?n _) _ _ _ _ |- _ => apply (means_exactly a A HA n) in K; destruct K end. eauto.
  - intros [-> (n & K)]. apply (M_star _ _ _ _ _ n). apply (means_exactly a A HA n). auto.
Qed.
Lemma means_plus a A : means a A -> means (ROneOrMore a) (fun i j => exists n, times_rel (S n) A i j).
Proof.
  intros HA i c j c'. cbn [as_compiled]. split.
  - intros M. inversion M; subst.
    match goal with K : Mat (RRepeatExactly (S ?n) _) _ _ _ _ |- _ => apply (means_exactly a A HA (S n)) in K; destruct K end. eauto.
  - intros [-> (n & K)]. apply (M_plus _ _ _ _ _ n). apply (means_exactly a A HA (S n)). auto.
Qed.
Lemma means_group a A : means a A -> means (RGroup a) A.
Proof.
  intros HA i c j c'. cbn [as_compiled]. split.
  - intros M. inversion M; subst. match goal with K : Mat _ _ _ _ _ |- _ => apply HA in K; exact K end.
  - intros K. constructor. apply HA, K.
Qed.
Lemma seq_rel_assoc A B l i j : then_rel (then_rel A B) (seq_rel l) i j <-> then_rel A (then_rel B (seq_rel l)) i j.
Proof. unfold then_rel. firstorder eauto 10. Qed.
Lemma means_concat_left rs As : Forall2 means rs As -> forall r A, means r A ->
  means (concat_left r rs) (seq_rel (A :: As)).
Proof.
  induction 1 as [|r' A' rs As H _ IH]; intros r A HA.
  - eapply means_ext; [|exact HA]. intros i j. simpl. split.
    + intros K. exists j. split; [exact K|]. split; auto.
    + intros (k & K & -> & _). exact K.
  - cbn [concat_left]. eapply means_ext; [|apply IH, means_concat; eassumption].
    intros i j. cbn [MatchSpec.seq_rel]. apply seq_rel_assoc.
Qed.

Lemma polar_false (P : char -> Prop) : (fun c => polar false (P c)) = P.
Proof. reflexivity. Qed.

Definition good (p : pattern) : Prop := forall r, re_of_pattern ctx p = Some r -> nested_negation p = false ->
  means r (pat_rel false p) /\
  (negates p = false -> forall r', negate r = Some r' -> means r' (pat_rel true p)).

Lemma concat_left_negate rs : forall r r', negate (concat_left r rs) = Some r' ->
  exists s ss, negate r = Some s /\ Forall2 (fun x y => negate x = Some y) rs ss /\ r' = concat_left s ss.
Proof.
  induction rs as [|x rs IH]; intros r r' H; simpl in H.
  - exists r', []. auto.
  - apply IH in H. destruct H as (s & ss & E & F & ->). simpl in E.
    destruct (negate r) as [a|]; [|discriminate]. destruct (negate x) as [b|] eqn:Eb; [|discriminate].
    injection E as <-. exists a, (b :: ss). auto.
Qed.

Lemma list_good ps : Forall good ps -> forall r, re_of_patterns ctx ps = Some r ->
  existsb nested_negation ps = false ->
  means r (seq_rel (map (pat_rel false) ps)) /\
  (existsb negates ps = false -> forall r', negate r = Some r' -> means r' (seq_rel (map (pat_rel true) ps))).
Proof.
  intros F r E NN. unfold re_of_patterns in E.
  assert (X : forall rs, re_of_pattern_list ctx ps = Some rs ->
    Forall2 means rs (map (pat_rel false) ps) /\
    (existsb negates ps = false -> forall ss, Forall2 (fun x y => negate x = Some y) rs ss ->
       Forall2 means ss (map (pat_rel true) ps))).
  { clear E r. induction F as [|p ps H _ IH]; intros rs E; simpl in E.
    - injection E as <-. split; [constructor|]. intros _ ss K. inversion K; constructor.
    - destruct (re_of_pattern ctx p) as [a|] eqn:Ea; [|discriminate].
      destruct (re_of_pattern_list ctx ps) as [l|]; [|discriminate]. injection E as <-.
      simpl in NN. apply orb_false_iff in NN. destruct NN as [N1 N2].
      destruct (H a Ea N1) as [G1 G2]. destruct (IH N2 l eq_refl) as [I1 I2]. split.
      + constructor; assumption.
      + intros B ss K. simpl in B. apply orb_false_iff in B. destruct B as [B1 B2].
        inversion K; subst. simpl. constructor; auto. }
  destruct (re_of_pattern_list ctx ps) as [rs|]; [|discriminate]. simpl in E.
  destruct rs as [|x rs]; [discriminate|]. injection E as <-.
  destruct (X _ eq_refl) as [X1 X2]. inversion X1 as [|x0 A0 rs0 As0 Hx Hrs Ex EA]; subst. split.
  - apply means_concat_left; assumption.
  - intros B r' En. apply concat_left_negate in En. destruct En as (s & ss & Es & Fs & ->).
    assert (K : Forall2 means (s :: ss) (map (pat_rel true) ps)) by (apply X2; auto).
    inversion K; subst. apply means_concat_left; assumption.
Qed.

Lemma means_string s : means (RString s) (fun i j => j = i + length s /\ stands input s i).
Proof. intros i c j c'. apply string_Mat. Qed.
Lemma means_nstring s : means (RNotString s) (fun i j => j = i + length s /\ differs input s i).
Proof. intros i c j c'. apply nstring_Mat. Qed.

Lemma pattern_good p : good p.
Proof.
  induction p as [|s|sd|  |cs|a|a sd|ps IH|p IH|p IH|p IH|p IH|l r IHl IHr] using pat_ind'; intros R E NN.
  - injection E as <-. split; [apply means_empty|]. intros _ r' [= <-]. apply means_never.
    intros i j [_ K]. apply K. exact I.
  - injection E as <-. split; [apply means_string|]. intros _ r' [= <-]. apply means_nstring.
  - injection E as <-. split; [apply means_anchor|]. intros _ r' En. apply means_nanchor, En.
  - injection E as <-. split.
    + intros i c j c'. split.
      * intros M. inversion M as [ |i0 c0 HC| | | | | | | | | | | | | | | | | | | | | | | | | ]; subst.
        destruct HC as (x & Hx & _). split; [reflexivity|]. split; [reflexivity|]. exists x. split; [exact Hx|exact I].
      * intros (-> & -> & x & Hx & _). apply M_any. exists x. auto.
    + intros _ r' [= <-]. apply means_never. intros i j (_ & x & _ & K). apply K. exact I.
  - injection E as <-. split.
    + apply means_single, single_class. intros c. apply mem_In.
    + intros _ r' [= <-]. apply means_single, single_nclass. intros c. apply mem_In.
  - cbn [re_of_pattern] in E. unfold re_of_attrs in E. destruct (existsb bad_attr a); [discriminate|].
    injection E as <-. split.
    + apply means_single, single_class, attrs_chars_In.
    + intros _ r' [= <-]. apply means_single, single_nclass, attrs_chars_In.
  - cbn [re_of_pattern] in E. unfold re_of_attrs in E. destruct (existsb bad_attr a); [discriminate|].
    injection E as <-. split.
    + apply means_either; [apply means_single, single_class, attrs_chars_In|apply means_anchor].
    + intros _ r' En. cbn [negate] in En. destruct (negate (boundary_anchor sd)) as [b|] eqn:Eb; [|discriminate].
      injection En as <-. apply means_either; [apply means_single, single_nclass, attrs_chars_In|apply means_nanchor, Eb].
  - rewrite re_of_group in E. destruct (re_of_patterns ctx ps) as [q|] eqn:Eq; [|discriminate]. injection E as <-.
    destruct (list_good ps IH q Eq NN) as [G1 G2]. split; [apply means_group, G1|].
    intros B r' En. cbn [negate] in En. destruct (negate q) as [q'|] eqn:Enq; [|discriminate]. injection En as <-.
    apply means_group, G2; auto.
  - cbn [re_of_pattern] in E. destruct (re_of_pattern ctx p) as [q|] eqn:Eq; [|discriminate]. simpl in E.
    cbn [nested_negation] in NN.
    split; [|discriminate]. cbn [MatchSpec.pat_rel]. apply (IH q Eq) with (r' := R); auto.
    clear -NN. revert NN. induction p as [| | | | | | |ps IH|q IH|q IH|q IH|q IH|l r IHl IHr] using pat_ind';
          try reflexivity; cbn [negates nested_negation]; auto; try discriminate.
    + intros H. induction IH as [|x l Hx _ IHl]; [reflexivity|]. simpl in *.
      apply orb_false_iff in H. destruct H. rewrite Hx, IHl; auto.
    + intros H. apply orb_false_iff in H. destruct H as [H1 H2]. apply orb_false_iff. split.
      * clear IHr H2. induction IHl as [|x l Hx _ IH]; [reflexivity|]. simpl in *.
        apply orb_false_iff in H1. destruct H1. rewrite Hx, IH; auto.
      * clear IHl H1. induction IHr as [|x r Hx _ IH]; [reflexivity|]. simpl in *.
        apply orb_false_iff in H2. destruct H2. rewrite Hx, IH; auto.
  - cbn [re_of_pattern] in E. destruct (re_of_pattern ctx p) as [q|] eqn:Eq; [|discriminate]. injection E as <-.
    destruct (IH q Eq NN) as [G1 G2]. split; [apply means_optional, G1|].
    intros B r' En. cbn [negate] in En. destruct (negate q) as [q'|] eqn:Enq; [|discriminate]. injection En as <-.
    apply means_optional, G2; auto.
  - cbn [re_of_pattern] in E. destruct (re_of_pattern ctx p) as [q|] eqn:Eq; [|discriminate]. injection E as <-.
    destruct (IH q Eq NN) as [G1 G2]. split; [apply means_star, G1|].
    intros B r' En. cbn [negate] in En. destruct (negate q) as [q'|] eqn:Enq; [|discriminate]. injection En as <-.
    apply means_star, G2; auto.
  - cbn [re_of_pattern] in E. destruct (re_of_pattern ctx p) as [q|] eqn:Eq; [|discriminate]. injection E as <-.
    destruct (IH q Eq NN) as [G1 G2]. split; [apply means_plus, G1|].
    intros B r' En. cbn [negate] in En. destruct (negate q) as [q'|] eqn:Enq; [|discriminate]. injection En as <-.
    apply means_plus, G2; auto.
  - rewrite re_of_either in E. destruct (re_of_patterns ctx l) as [a|] eqn:Ea; [|discriminate].
    destruct (re_of_patterns ctx r) as [b|] eqn:Eb; [|discriminate]. injection E as <-.
    cbn [nested_negation] in NN. apply orb_false_iff in NN. destruct NN as [N1 N2].
    destruct (list_good l IHl a Ea N1) as [G1 G2]. destruct (list_good r IHr b Eb N2) as [G3 G4].
    split; [apply means_either; assumption|]. intros B r' En. cbn [negates] in B.
    apply orb_false_iff in B. destruct B as [B1 B2]. cbn [negate] in En.
    destruct (negate a) as [a'|] eqn:Ena; [|discriminate]. destruct (negate b) as [b'|] eqn:Enb; [|discriminate].
    injection En as <-. apply means_either; [apply G2|apply G4]; auto.
Qed.

(** the text of the rule, without regard to case *)
Definition stands_ci (s : str) (i : nat) : Prop :=
  forall k x, nth_error s k = Some x -> exists a, nth_error input (i + k) = Some a /\ lower a = [x].
Lemma cistring_Mat s i c j c' :
  Mat (RCIString s) i c j c' <-> c' = c /\ j = i + length s /\ stands_ci s i.
Proof.
  assert (X : forall e a, ci_match lower a e = true <-> lower a = [e]).
  { intros e a. unfold ci_match. destruct (lower a) as [|y [|z l]]; split; try discriminate.
    - intros H. apply N.eqb_eq in H. subst. reflexivity.
    - intros [= ->]. apply N.eqb_refl. }
  split.
  - intros M. inversion M as [ | | | | | |s0 i0 c0 HC| | | | | | | | | | | | | | | | | | | | ]; subst.
    repeat split. intros k x Hx.
    destruct (proj1 (chars_ok_all input (ci_eq lower) s i) HC k x Hx) as (a & Ha & E).
    exists a. split; auto. apply X, E.
  - intros (-> & -> & H). apply M_cistring. apply (chars_ok_all input (ci_eq lower)). intros k x Hx.
    destruct (H k x Hx) as (a & Ha & E). exists a. split; auto. apply X, E.
Qed.

Lemma match_found pre chars post r :
  existsb nested_negation pre = false -> existsb nested_negation post = false ->
  re_of_match ctx pre chars post = Some r ->
  exists o, regexp_find lower r env at_start input = Ok o /\
    match o with
    | None => forall s j, ~ (pats_rel members at_start input pre 0 s /\ stands_ci chars s /\
                             pats_rel members at_start input post (s + length chars) j)
    | Some f => exists s j, pats_rel members at_start input pre 0 s /\ stands_ci chars s /\
        pats_rel members at_start input post (s + length chars) j /\
        s + length chars <= j /\ j <= length input /\ f = report input s (s + length chars) j
    end.
Proof.
  intros N1 N2 E. unfold re_of_match in E.
  destruct (re_of_patterns ctx pre) as [a|] eqn:Ea; [|discriminate].
  destruct (re_of_patterns ctx post) as [b|] eqn:Eb; [|discriminate]. injection E as <-.
  assert (AG : forall ps, Forall good ps) by (intros ps; apply Forall_forall; intros p _; apply pattern_good).
  destruct (list_good pre (AG _) a Ea N1) as [Ga _]. destruct (list_good post (AG _) b Eb N2) as [Gb _].
  destruct (find_spec lower env at_start (RConcat (RConcat a (RCapture (RCIString chars))) b) input) as (o & Eo & H).
  exists o. split; [exact Eo|]. cbn [as_compiled] in H.
  assert (X : forall j c, Mat (RConcat (RConcat (as_compiled a) (RCapture (RCIString chars))) (as_compiled b)) 0 (0, 0) j c <->
    exists s, pats_rel members at_start input pre 0 s /\ stands_ci chars s /\
      pats_rel members at_start input post (s + length chars) j /\ c = (s, s + length chars)).
  { intros j c. split.
    - intros M. inversion M as [ | | | | | | |a1 b1 i1 c1 k1 d1 j1 c1' M1 M2| | | | | | | | | | | | | | | | | | | ]; subst.
      inversion M1 as [ | | | | | | |a2 b2 i2 c2 k2 d2 j2 c2' M3 M4| | | | | | | | | | | | | | | | | | | ]; subst.
      inversion M4 as [ | | | | | | | | | | | | | | | | | |a3 i3 c3 j3 d3 M5| | | | | | | | ]; subst.
      apply Ga in M3. apply Gb in M2. apply cistring_Mat in M5. destruct M3 as [-> P1], M5 as (-> & -> & P2), M2 as [-> P3].
      exists k2. auto.
    - intros (s & P1 & P2 & P3 & ->). eapply M_concat; [eapply M_concat|].
      + apply Ga. split; [reflexivity|exact P1].
      + apply M_capture. apply cistring_Mat. auto.
      + apply Gb. split; [reflexivity|exact P3]. }
  destruct o as [f|].
  - destruct H as (j & s & e & M & H1 & H2 & H3 & ->). apply X in M.
    destruct M as (s' & P1 & P2 & P3 & Ec). injection Ec as -> ->. exists s', j. auto 10.
  - intros s j (P1 & P2 & P3). apply (H j (s, s + length chars)). apply X. eauto 10.
Qed.
End Compiled.
