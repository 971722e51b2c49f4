(** Compiled context patterns do what TestSpec.v says. *)
From Verif Require TrieProofs.
From Verif Require Import Base BaseProofs RuleModel TranslationModel TableModel TableProofs RegexpModel RegexpSpec RegexpCorrect
  PatternModel OperandProofs TestSpec.

Section Compiled.
Variable lower : char -> list char.
Variable ctx : classes.
Variable env : N -> option N.
Variable at_start : bool.
Variable input : str.
Notation Mat := (Mat lower env at_start input).
Definition members (k : class) (c : char) : Prop := In (k, c) ctx.
Notation Test := (Test members env at_start input).
Notation Tests := (Tests members env at_start input).

Lemma class_chars_In k c : mem c (class_chars ctx k) = true <-> members k c.
Proof.
  rewrite mem_In. unfold class_chars, members. rewrite TrieProofs.sort_dedup_In. destruct (cls_get ctx k) as [l|] eqn:E.
  - apply cls_get_In. exact E.
  - split; [intros []|intros H]. exact (proj1 (cls_get_None ctx k) E c H).
Qed.
Lemma attrs_chars_In attrs c : mem c (attrs_chars ctx attrs) = true <-> has_attr members attrs c.
Proof.
  rewrite mem_In. unfold attrs_chars, has_attr. rewrite TrieProofs.sort_dedup_In, in_flat_map. split.
  - intros (a & Ha & Hc). destruct a as [k| | | ]; try destruct Hc. exists k. split; auto.
    apply class_chars_In, mem_In, Hc.
  - intros (k & Hk & Hc). exists (AClass k). split; auto. apply mem_In, class_chars_In, Hc.
Qed.

Lemma chars_ok_all (p : char -> char -> bool) s i :
  chars_ok input (map p s) i <-> forall k x, nth_error s k = Some x -> char_ok input (p x) (i + k).
Proof.
  revert i. induction s as [|c s IH]; intros i; simpl.
  - split; [intros _ [|k] x; discriminate|auto].
  - rewrite IH. split.
    + intros [H1 H2] [|k] x; simpl.
      * intros [= <-]. rewrite Nat.add_0_r. exact H1.
      * intros H. replace (i + S k) with (S i + k) by lia. apply H2, H.
    + intros H. split.
      * specialize (H 0 c eq_refl). rewrite Nat.add_0_r in H. exact H.
      * intros k x Hx. replace (S i + k) with (i + S k) by lia. apply H, Hx.
Qed.

(** A pattern for a single character. *)
Definition single (R : regexp) (P : char -> Prop) : Prop :=
  as_compiled R = R /\
  forall i c j c', Mat R i c j c' <-> c' = c /\ j = S i /\ exists a, nth_error input i = Some a /\ P a.
Lemma single_class cs (P : char -> Prop) : (forall c, mem c cs = true <-> P c) -> single (RClass cs) P.
Proof.
  intros H. split; [reflexivity|]. intros i c j c'. split.
  - intros M. inversion M as [ | |cs0 i0 c0 HC| | | | | | | | | | | | | | | | | | | | | | | | ]; subst.
    destruct HC as (a & Ha & Hm). repeat split. exists a. split; auto. apply H, Hm.
  - intros (-> & -> & a & Ha & Hp). apply M_class. exists a. split; auto. apply H, Hp.
Qed.
Lemma single_nclass cs (P : char -> Prop) : (forall c, mem c cs = true <-> P c) ->
  single (RNotClass cs) (fun c => ~ P c).
Proof.
  intros H. split; [reflexivity|]. intros i c j c'. split.
  - intros M. inversion M as [ | | |cs0 i0 c0 HC| | | | | | | | | | | | | | | | | | | | | | | ]; subst.
    destruct HC as (a & Ha & Hm). repeat split. exists a. split; auto.
    intros Hp. apply H in Hp. rewrite Hp in Hm. discriminate.
  - intros (-> & -> & a & Ha & Hp). apply M_nclass. exists a. split; auto.
    destruct (mem a cs) eqn:E; [|reflexivity]. apply H in E. contradiction.
Qed.

Lemma stretch_nil P i : stretch input P i (i + 0).
Proof. intros k Hk. lia. Qed.
Lemma stretch_S P i k : stretch input P i (i + S k) <->
  (exists a, nth_error input i = Some a /\ P a) /\ stretch input P (S i) (S i + k).
Proof.
  split.
  - intros H. split; [apply H; lia|]. intros x Hx. apply H. lia.
  - intros [H1 H2] x Hx. destruct (Nat.eq_dec x i) as [->|NE]; [exact H1|]. apply H2. lia.
Qed.
Lemma stretch_add P i a b : stretch input P i (i + a) -> stretch input P (i + a) (i + a + b) ->
  stretch input P i (i + (a + b)).
Proof. intros H1 H2 x Hx. destruct (Nat.lt_ge_cases x (i + a)); [apply H1|apply H2]; lia. Qed.

Lemma exactly_single R P : single R P -> forall n i c j c',
  Mat (RRepeatExactly n R) i c j c' <-> c' = c /\ j = i + n /\ stretch input P i (i + n).
Proof.
  intros [_ HR]. induction n as [|n IH]; intros i c j c'.
  - split.
    + intros M. inversion M; subst. repeat split; [lia|apply stretch_nil].
    + intros (-> & -> & _). rewrite Nat.add_0_r. constructor.
  - split.
    + intros M. inversion M; subst.
      match goal with A : Mat R _ _ _ _, B : Mat (RRepeatExactly n R) _ _ _ _ |- _ =>
        apply HR in A; apply IH in B; destruct A as (-> & -> & HA1), B as (-> & -> & HB1) end.
      repeat split; [lia|]. apply stretch_S. split; [exact HA1|]. exact HB1.
    + intros (-> & -> & H). apply stretch_S in H. destruct H as [A B].
      eapply M_exactly_S; [apply HR; repeat split; exact A|].
      apply IH. repeat split; [lia|exact B].
Qed.
Lemma blocks_single R P d : single R P -> forall b i c j c',
  Mat (RRepeatExactly b (RRepeatExactly d R)) i c j c' <->
  c' = c /\ j = i + b * d /\ stretch input P i (i + b * d).
Proof.
  intros HR. induction b as [|b IH]; intros i c j c'.
  - split.
    + intros M. inversion M; subst. repeat split; [lia|apply stretch_nil].
    + intros (-> & -> & _). simpl. rewrite Nat.add_0_r. constructor.
  - split.
    + intros M. inversion M; subst.
      match goal with A : Mat (RRepeatExactly d R) _ _ _ _, B : Mat (RRepeatExactly b _) _ _ _ _ |- _ =>
        apply (exactly_single _ _ HR) in A; apply IH in B; destruct A as (-> & -> & HA1), B as (-> & -> & HB1) end.
      repeat split; [lia|]. cbn [Nat.mul]. apply stretch_add; assumption.
    + intros (-> & -> & H). cbn [Nat.mul] in *. 
      eapply M_exactly_S; [apply (exactly_single _ _ HR); repeat split|apply IH; repeat split].
      * intros x Hx. apply H. lia.
      * lia.
      * intros x Hx. apply H. lia.
Qed.

Lemma quantified_single R P q : single R P -> forall i c j c',
  Mat (as_compiled (quantified q R)) i c j c' <->
  c' = c /\ exists k, j = i + k /\ count_ok q k /\ stretch input P i (i + k).
Proof.
  intros HR i c j c'. pose proof HR as [HA HS]. destruct q as [[n|m n|]|]; cbn [quantified as_compiled count_ok]; rewrite ?HA.
  - rewrite (exactly_single _ _ HR). split.
    + intros (-> & -> & H). split; [reflexivity|]. eexists. split; [reflexivity|]. split; auto.
    + intros (-> & k & -> & -> & H). auto.
  - split.
    + intros M. inversion M; subst.
      match goal with A : Mat (RRepeatExactly (N.to_nat m) R) _ _ _ _, B : Mat (RZeroOrMore _) _ _ _ _ |- _ =>
        apply (exactly_single _ _ HR) in A; destruct A as (-> & -> & HA1); inversion B; subst end.
      match goal with B : Mat (RRepeatExactly _ (RRepeatExactly _ R)) _ _ _ _ |- _ =>
        apply (blocks_single _ _ _ HR) in B; destruct B as (-> & -> & HB1) end.
      split; [reflexivity|]. eexists. split; [|split].
      * rewrite <- Nat.add_assoc. reflexivity.
      * eexists. reflexivity.
      * apply stretch_add; assumption.
    + intros (-> & k & -> & (b & ->) & H).
      eapply M_concat.
      * apply (exactly_single _ _ HR). repeat split. intros x Hx. apply H. lia.
      * apply (M_star _ _ _ _ _ b). apply (blocks_single _ _ _ HR). repeat split; [lia|].
        intros x Hx. apply H. lia.
  - split.
    + intros M. inversion M; subst.
      match goal with A : Mat (RRepeatExactly _ R) _ _ _ _ |- _ =>
        apply (exactly_single _ _ HR) in A; destruct A as (-> & -> & HA1) end.
      split; [reflexivity|]. eexists. split; [reflexivity|]. split; [lia|exact HA1].
    + intros (-> & [|k] & -> & Hk & H); [lia|]. apply (M_plus _ _ _ _ _ k).
      apply (exactly_single _ _ HR). auto.
  - rewrite HS. split.
    + intros (-> & -> & A). split; [reflexivity|]. exists 1. split; [lia|]. split; [reflexivity|].
      apply (proj2 (stretch_S P i 0)). split; [exact A|apply stretch_nil].
    + intros (-> & k & -> & -> & H). split; [reflexivity|]. split; [lia|]. apply H. lia.
Qed.

Lemma string_Mat s i c j c' :
  Mat (RString s) i c j c' <-> c' = c /\ j = i + length s /\ stands input s i.
Proof.
  split.
  - intros M. inversion M as [ | | | |s0 i0 c0 HC| | | | | | | | | | | | | | | | | | | | | | ]; subst.
    repeat split. intros k x Hx. destruct (proj1 (chars_ok_all N.eqb s i) HC k x Hx) as (a & Ha & E).
    apply N.eqb_eq in E. subst. exact Ha.
  - intros (-> & -> & H). apply M_string. apply (chars_ok_all N.eqb). intros k x Hx.
    exists x. split; [apply H, Hx|apply N.eqb_refl].
Qed.
Lemma nstring_Mat s i c j c' :
  Mat (RNotString s) i c j c' <-> c' = c /\ j = i + length s /\ differs input s i.
Proof.
  split.
  - intros M. inversion M as [ | | | | |s0 i0 c0 HC| | | | | | | | | | | | | | | | | | | | | ]; subst.
    repeat split. intros k x Hx.
    destruct (proj1 (chars_ok_all (fun e a => negb (N.eqb e a)) s i) HC k x Hx) as (a & Ha & E).
    exists a. split; auto. intros ->. rewrite N.eqb_refl in E. discriminate.
  - intros (-> & -> & H). apply M_nstring. apply (chars_ok_all (fun e a => negb (N.eqb e a))). intros k x Hx.
    destruct (H k x Hx) as (y & Hy & NE). exists y. split; auto.
    destruct (N.eqb_spec x y) as [->|]; [congruence|reflexivity].
Qed.

(** a concatenation, seen as a sequence *)
Fixpoint MatSeq (rs : list regexp) (i : nat) (c : span) (j : nat) (c' : span) : Prop :=
  match rs with
  | [] => j = i /\ c' = c
  | r :: rest => exists k d, Mat (as_compiled r) i c k d /\ MatSeq rest k d j c'
  end.
Lemma concat_left_Mat rs : forall r i c j c',
  Mat (as_compiled (concat_left r rs)) i c j c' <-> MatSeq (r :: rs) i c j c'.
Proof.
  induction rs as [|r' rs IH]; intros r i c j c'.
  - simpl. split.
    + intros M. exists j, c'. auto.
    + intros (k & d & M & -> & ->). exact M.
  - cbn [concat_left]. rewrite IH. split.
    + intros (k & d & M & R). cbn [as_compiled] in M. inversion M; subst. simpl. eauto 10.
    + intros (k & d & M & k2 & d2 & M2 & R). exists k2, d2. split; [|exact R].
      cbn [as_compiled]. eapply M_concat; eassumption.
Qed.
Lemma MatSeq_app a b i c j c' :
  MatSeq (a ++ b) i c j c' <-> exists k d, MatSeq a i c k d /\ MatSeq b k d j c'.
Proof.
  revert i c. induction a as [|r a IH]; intros i c; simpl.
  - split; [intros H; eauto|]. intros (k & d & [-> ->] & H). exact H.
  - split.
    + intros (k & d & M & H). apply IH in H. destruct H as (k2 & d2 & A & B). eauto 10.
    + intros (k & d & (k1 & d1 & M & A) & B). exists k1, d1. split; auto. apply IH. eauto.
Qed.

Definition all_free (ts : list test_instr) : bool := forallb bracket_free ts.

(** Soundness and completeness for one instruction and for sequences. *)
Definition agrees (t : test_instr) : Prop := wf_test t = true -> forall r, re_of_instr ctx t = Some r ->
  (forall i c j c', Mat (as_compiled r) i c j c' -> Test t i j /\ (bracket_free t = true -> c' = c)) /\
  (forall i c j, Test t i j -> exists c', Mat (as_compiled r) i c j c').
Lemma all_agree ts : Forall agrees ts -> forallb wf_test ts = true -> forall rs, re_of_all ctx ts = Some rs ->
  (forall i c j c', MatSeq rs i c j c' -> Tests ts i j /\ (all_free ts = true -> c' = c)) /\
  (forall i c j, Tests ts i j -> exists c', MatSeq rs i c j c').
Proof.
  induction 1 as [|t ts Ht _ IH]; intros W rs; simpl.
  - intros [= <-]. split.
    + intros i c j c' [-> ->]. split; [constructor|auto].
    + intros i c j H. inversion H; subst. exists c. simpl. auto.
  - destruct (re_of_instr ctx t) as [r|] eqn:E; [|discriminate].
    destruct (re_of_all ctx ts) as [rs'|]; [|discriminate]. intros [= <-].
    simpl in W. apply andb_prop in W. destruct W as [W1 W2].
    destruct (Ht W1 r E) as [S1 C1]. destruct (IH W2 rs' eq_refl) as [S2 C2]. split.
    + intros i c j c' (k & d & M & R). apply S1 in M. apply S2 in R. destruct M as [M F1], R as [R F2].
      split; [econstructor; eassumption|]. intros F. apply andb_prop in F. destruct F as [Fa Fb].
      rewrite (F2 Fb). apply F1, Fa.
    + intros i c j H. inversion H as [|t0 ts0 i0 k j0 T Ts]; subst.
      destruct (C1 i c k T) as (d & M). destruct (C2 k d j Ts) as (c' & R). exists c'. simpl. eauto.
Qed.

Lemma instr_agrees t : agrees t.
Proof.
  induction t as [n|v o x|s|s|a q|n q|t IH|ts IH| |] using test_ind'; intros W r E.
  - injection E as <-. simpl. split.
    + intros i c j c' M. inversion M; subst. split; [constructor|auto].
    + intros i c j H. inversion H; subst. exists c. constructor.
  - destruct o; try discriminate. injection E as <-. simpl. split.
    + intros i c j c' M. inversion M; subst. split; [constructor; assumption|auto].
    + intros i c j H. inversion H; subst. exists c. constructor; assumption.
  - injection E as <-. split.
    + intros i c j c' M. apply string_Mat in M. destruct M as (-> & -> & M). split; [constructor; assumption|auto].
    + intros i c j H. inversion H; subst. exists c. apply string_Mat. auto.
  - injection E as <-. split.
    + intros i c j c' M. apply string_Mat in M. destruct M as (-> & -> & M). split; [constructor; assumption|auto].
    + intros i c j H. inversion H; subst. exists c. apply string_Mat. auto.
  - injection E as <-. pose proof (quantified_single _ _ q (single_class _ _ (attrs_chars_In a))) as Q. split.
    + intros i c j c' M. apply Q in M. destruct M as (-> & k & -> & K & M). split; [constructor; assumption|auto].
    + intros i c j H. inversion H; subst. exists c. apply Q. eauto.
  - injection E as <-. pose proof (quantified_single _ _ q (single_class _ _ (class_chars_In (class_from n)))) as Q. split.
    + intros i c j c' M. apply Q in M. destruct M as (-> & k & -> & K & M). split; [constructor; assumption|auto].
    + intros i c j H. inversion H; subst. exists c. apply Q. eauto.
  - cbn [re_of_instr] in E. destruct t as [n|v o x|s|s|a q|n q|t|ts| |].
    + injection E as <-. simpl. split.
      * intros i c j c' M. inversion M.
      * intros i c j H. inversion H.
    + destruct o; try discriminate. injection E as <-. simpl. split.
      * intros i c j c' M. inversion M as [ | | | | | | | | | | | | | | | | | | | | | |v0 x0 i0 c0 HV| | | | ]; subst.
        destruct HV as (y & Hy & NE). split; [econstructor; eassumption|auto].
      * intros i c j H. inversion H; subst. exists c. constructor. eexists; eauto.
    + injection E as <-. split.
      * intros i c j c' M. apply nstring_Mat in M. destruct M as (-> & -> & M). split; [constructor; assumption|auto].
      * intros i c j H. inversion H; subst. exists c. apply nstring_Mat. auto.
    + injection E as <-. split.
      * intros i c j c' M. apply nstring_Mat in M. destruct M as (-> & -> & M). split; [constructor; assumption|auto].
      * intros i c j H. inversion H; subst. exists c. apply nstring_Mat. auto.
    + assert (E' : r = quantified q (RNotClass (attrs_chars ctx a))).
      { cbn [re_of_instr] in E. destruct q as [[|  |]|]; injection E as <-; reflexivity. }
      subst r. clear E. pose proof (quantified_single _ _ q (single_nclass _ _ (attrs_chars_In a))) as Q. split.
      * intros i c j c' M. apply Q in M. destruct M as (-> & k & -> & K & M). split; [constructor; assumption|auto].
      * intros i c j H. inversion H; subst. exists c. apply Q. eauto.
    + assert (E' : r = quantified q (RNotClass (class_chars ctx (class_from n)))).
      { cbn [re_of_instr] in E. destruct q as [[|  |]|]; injection E as <-; reflexivity. }
      subst r. clear E. pose proof (quantified_single _ _ q (single_nclass _ _ (class_chars_In (class_from n)))) as Q. split.
      * intros i c j c' M. apply Q in M. destruct M as (-> & k & -> & K & M). split; [constructor; assumption|auto].
      * intros i c j H. inversion H; subst. exists c. apply Q. eauto.
    + discriminate W.
    + discriminate W.
    + injection E as <-. simpl. split.
      * intros i c j c' M. inversion M; subst. split; [constructor; assumption|auto].
      * intros i c j H. inversion H; subst. exists c. constructor; assumption.
    + injection E as <-. simpl. split.
      * intros i c j c' M. inversion M; subst. split; [constructor; assumption|auto].
      * intros i c j H. inversion H; subst. exists c. constructor; assumption.
  - rewrite re_of_replace in E. destruct (re_of_all ctx ts) as [rs|] eqn:Er; [|discriminate].
    destruct (all_agree ts IH W rs Er) as [S2 C2].
    assert (X : forall i c j c', Mat (as_compiled r) i c j c' <->
                exists d, MatSeq rs i (i, 0) j d /\ c' = (fst d, j)).
    { intros i c j c'. destruct rs as [|r0 rs]; injection E as <-; cbn [as_compiled].
      - split.
        + intros M. inversion M as [ | | | | | | | | | | | | | | | | | |a i0 c0 j0 d M'| | | | | | | | ]; subst. inversion M'; subst.
          exists (j, 0). simpl. auto.
        + intros (d & [-> ->] & ->). apply M_capture. constructor.
      - split.
        + intros M. inversion M as [ | | | | | | | | | | | | | | | | | |a i0 c0 j0 d M'| | | | | | | | ]; subst.
          apply concat_left_Mat in M'. eauto.
        + intros (d & M & ->). apply M_capture. apply concat_left_Mat. exact M. }
    split.
    + intros i c j c' M. apply X in M. destruct M as (d & M & ->). apply S2 in M.
      split; [constructor; tauto|discriminate].
    + intros i c j H. inversion H; subst.
      match goal with T : TestSpec.Tests _ _ _ _ _ _ _ |- _ => destruct (C2 i (i, 0) j T) as (d & M) end.
      exists (fst d, j). apply X. eauto.
  - injection E as <-. simpl. split.
    + intros i c j c' M. inversion M as [ | | | | | | | | | | | | | | | | | | | | | | | | |i0 c0 HS| ]; subst.
      destruct HS as [HS ->]. split; [constructor; assumption|auto].
    + intros i c j H. inversion H; subst. exists c. constructor. auto.
  - injection E as <-. simpl. split.
    + intros i c j c' M. inversion M; subst. split; [constructor|auto].
    + intros i c j H. inversion H; subst. exists c. constructor. reflexivity.
Qed.

Lemma re_of_all_app a b : re_of_all ctx (a ++ b) =
  match re_of_all ctx a, re_of_all ctx b with Some x, Some y => Some (x ++ y) | _, _ => None end.
Proof.
  induction a as [|t a IH]; simpl.
  - destruct (re_of_all ctx b); reflexivity.
  - rewrite IH. destruct (re_of_instr ctx t), (re_of_all ctx a), (re_of_all ctx b); reflexivity.
Qed.

Lemma bracket_found before mid after r :
  forallb wf_test (before ++ TReplace mid :: after) = true ->
  all_free mid = true -> all_free after = true ->
  re_of_instrs ctx (before ++ TReplace mid :: after) = Some r ->
  exists o, regexp_find lower r env at_start input = Ok o /\
    match o with
    | None => forall s e j, ~ (Tests before 0 s /\ Tests mid s e /\ Tests after e j)
    | Some f => exists s e j, Tests before 0 s /\ Tests mid s e /\ Tests after e j /\
        s <= e /\ e <= j /\ j <= length input /\ f = report input s e j
    end.
Proof.
  intros W Fm Fa E. unfold re_of_instrs in E.
  rewrite re_of_all_app in E. cbn [re_of_all] in E. rewrite re_of_replace in E.
  assert (AG : forall ts, Forall agrees ts) by (intros ts; apply Forall_forall; intros t _; apply instr_agrees).
  rewrite forallb_app in W. apply andb_prop in W. destruct W as [Wb W]. simpl in W.
  apply andb_prop in W. destruct W as [Wm Wa].
  destruct (re_of_all ctx before) as [rb|] eqn:Eb; [|discriminate].
  destruct (re_of_all ctx mid) as [rm|] eqn:Em; [|discriminate].
  destruct (re_of_all ctx after) as [ra|] eqn:Ea.
  2:{ destruct rm; discriminate. }
  destruct (all_agree before (AG _) Wb rb Eb) as [Sb Cb].
  destruct (all_agree mid (AG _) Wm rm Em) as [Sm Cm].
  destruct (all_agree after (AG _) Wa ra Ea) as [Sa Ca].
  assert (exists x, (forall i c j c', Mat (as_compiled r) i c j c' <-> MatSeq (rb ++ x :: ra) i c j c') /\
      forall i c j c', Mat (as_compiled x) i c j c' <->
                exists d, MatSeq rm i (i, 0) j d /\ c' = (fst d, j)) as (x & Hr & Hx).
  { exists (match rm with [] => RCapture REmpty | y :: ys => RCapture (concat_left y ys) end). split.
    - intros i c j c'.
      assert (E' : match rb ++ (match rm with [] => RCapture REmpty | y :: ys => RCapture (concat_left y ys) end) :: ra with
              [] => Some REmpty | r0 :: rs => Some (concat_left r0 rs) end = Some r)
        by (destruct rm; exact E). clear E.
      destruct (rb ++ _ :: ra) as [|r0 rs] eqn:Q; [destruct rb; discriminate|]. injection E' as <-.
      apply concat_left_Mat.
    - intros i c j c'. destruct rm as [|r0 rs]; cbn [as_compiled].
      + split.
        * intros M. inversion M as [ | | | | | | | | | | | | | | | | | |a i0 c0 j0 d M'| | | | | | | | ]; subst. inversion M'; subst.
          exists (j, 0). simpl. auto.
        * intros (d & [-> ->] & ->). apply M_capture. constructor.
      + split.
        * intros M. inversion M as [ | | | | | | | | | | | | | | | | | |a i0 c0 j0 d M'| | | | | | | | ]; subst.
          apply concat_left_Mat in M'. eauto.
        * intros (d & M & ->). apply M_capture. apply concat_left_Mat. exact M. }
  destruct (find_spec lower env at_start r input) as (o & Eo & H). exists o. split; [exact Eo|].
  destruct o as [f|].
  - destruct H as (j & s & e & M & H1 & H2 & H3 & ->). apply Hr in M. apply MatSeq_app in M.
    destruct M as (k & d & Mb & k2 & d2 & Mx & Ma). apply Hx in Mx. destruct Mx as (d3 & Mm & ->).
    apply Sb in Mb. apply Sm in Mm. apply Sa in Ma. destruct Mb as [Tb _], Mm as [Tm Dm], Ma as [Ta Da].
    specialize (Da Fa). rewrite (Dm Fm) in Da. cbn [fst] in Da. injection Da as -> ->.
    exists k, k2, j. auto 10.
  - intros s e j (Tb & Tm & Ta).
    destruct (Cb 0 (0, 0) s Tb) as (c1 & Mb). destruct (Cm s (s, 0) e Tm) as (c2 & Mm).
    destruct (Ca e (fst c2, e) j Ta) as (c3 & Ma).
    apply (H j c3). apply Hr. apply MatSeq_app. exists s, c1. split; [exact Mb|].
    exists e, (fst c2, e). split; [|exact Ma]. apply Hx. exists c2. auto.
Qed.
End Compiled.

(** ** Actions *)
Definition swap_of (sw : swaps) (name : str) (c : char) : option str :=
  match swaps_get sw name with Some m => assoc c m | None => None end.
Lemma targets_output sw action ts cap : targets_of sw action = TOk ts ->
  targets_string ts cap = Ok (flat_map (action_output (swap_of sw) cap) action).
Proof.
  revert ts. induction action as [|a action IH]; intros ts; simpl.
  - intros [= <-]. reflexivity.
  - destruct (target_of sw a) as [t| |] eqn:Et; try discriminate. simpl.
    destruct (targets_of sw action) as [ts'| |] eqn:Ets; try discriminate. intros [= <-].
    cbn [targets_string]. rewrite (IH _ eq_refl).
    assert (X : target_to_string (target_resolve t cap) = Ok (action_output (swap_of sw) cap a)).
    { destruct a; simpl in Et; try (injection Et as <-; reflexivity).
      destruct (swaps_get sw name) as [m|] eqn:Es; [|discriminate]. injection Et as <-. simpl. f_equal.
      unfold swapped, swap_of, swap. rewrite Es. reflexivity. }
    rewrite X. reflexivity.
Qed.
