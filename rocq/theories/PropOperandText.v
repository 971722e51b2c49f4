(** C57 (tests and actions as text), C58 (match patterns as text). *)
From Coq Require Import Strings.String.
From Coq Require Import List.
From Verif Require Import Base BaseProofs RuleModel TranslationModel BrailleModel BrailleProofs OperandModel
  OperandProofs OperandProofs2 UnescapeSpec UnescapeProofs OperandSpec OperandText.
Local Open Scope list_scope.

(** ** C57 *)

(** A test operand is accepted iff it is a way to write a non-empty sequence of tests
    ([tests_text], OperandSpec.v), and then it is read as these tests. *)
Theorem C57_tests : forall s l, parse_tests s = Good l [] <-> l <> [] /\ tests_text s l [].
Proof. exact parse_tests_spec. Qed.
Print Assumptions C57_tests.

(** The same for actions. *)
Theorem C57_actions : forall s l, parse_actions s = Good l [] <-> l <> [] /\ actions_text s l [].
Proof. exact parse_actions_spec. Qed.
Print Assumptions C57_actions.

(** Every other operand is an error, and no operand can be read in two ways. *)
Theorem C57_otherwise_rejected : forall s,
  ((forall l, l <> [] -> ~ tests_text s l []) -> parse_tests s = Bad) /\
  ((forall l, l <> [] -> ~ actions_text s l []) -> parse_actions s = Bad).
Proof.
  intros s. split; intros H.
  - destruct (parse_tests s) as [l r| |] eqn:E; [|reflexivity|destruct (parse_tests_total _ E)].
    assert (R : r = []). { unfold parse_tests in E. apply pbind_Good in E as (ts & r' & _ & E). destruct ts; [discriminate|]. destruct r'; [|discriminate]. injection E as _ <-. reflexivity. }
    subst r. apply C57_tests in E as [A B]. destruct (H l A B).
  - destruct (parse_actions s) as [l r| |] eqn:E; [|reflexivity|destruct (parse_actions_total _ E)].
    assert (R : r = []). { unfold parse_actions in E. apply pbind_Good in E as (ts & r' & _ & E). destruct ts; [discriminate|]. destruct r'; [|discriminate]. injection E as _ <-. reflexivity. }
    subst r. apply C57_actions in E as [A B]. destruct (H l A B).
Qed.
Print Assumptions C57_otherwise_rejected.
Theorem C57_one_reading : forall s,
  (forall l l', l <> [] -> l' <> [] -> tests_text s l [] -> tests_text s l' [] -> l = l') /\
  (forall l l', l <> [] -> l' <> [] -> actions_text s l [] -> actions_text s l' [] -> l = l').
Proof.
  intros s. split; intros l l' A A' T T'.
  - assert (E := proj2 (C57_tests s l) (conj A T)). assert (E' := proj2 (C57_tests s l') (conj A' T')). congruence.
  - assert (E := proj2 (C57_actions s l) (conj A T)). assert (E' := proj2 (C57_actions s l') (conj A' T')). congruence.
Qed.
Print Assumptions C57_one_reading.

(** Every text can be quoted with printable ASCII characters, without a space (which would
    end the operand); the characters from U+100000 on stand for themselves. *)
Theorem C57_every_text_can_be_quoted : forall t, Forall scalar t ->
  exists s, quoted_text s t /\ Forall (fun c => printable c \/ (0x100000 <= c)%N) s.
Proof.
  induction t as [|c t IH]; intros F; [exists []; split; constructor|].
  inversion F as [|? ? Hc Ft]; subst. destruct (IH Ft) as (s & Q & P).
  destruct (N.ltb_spec c 0x100000).
  - exists (lit "\y" ++ hex5 c ++ s). split.
    + apply q_y; [reflexivity|apply number_weaken, N_digits, hex5_value; assumption|exact Hc|exact Q].
    + rewrite app_assoc. apply Forall_app. split; [|exact P].
      assert (W : write_char c = lit "\y" ++ hex5 c).
      { unfold write_char. destruct (N.ltb_spec c 0x100000); [reflexivity|lia]. }
      rewrite <- W. eapply Forall_impl; [|apply write_char_printable; lia]. intros x Hx. left. exact Hx.
  - exists (c :: s). split; [apply q_plain; [intros ->|intros ->|exact Q]; vm_compute in H; congruence|].
    constructor; [right; exact H|exact P].
Qed.
Print Assumptions C57_every_text_can_be_quoted.

(** The escapes of the other operands (C35) are not available in strings: of two
    backslashes both remain, and [\t] is a backslash and a [t]. *)
Theorem C57_escapes_of_other_operands_refuted :
  parse_tests (lit """a\\b\t""") = Good [TString (lit "a\\b\t")] [] /\
  (exists t, Escaped false true (lit "a\\b\t") t /\ t <> lit "a\\b\t") /\
  parse_tests (lit """a\\""") = Bad.
Proof.
  split; [reflexivity|]. split; [|reflexivity]. exists [97; 92; 98; 9]%N. split; [|discriminate].
  apply (unescape_spec EscDefault). reflexivity.
Qed.
Print Assumptions C57_escapes_of_other_operands_refuted.

Example C57_example :
  parse_tests (lit "_2[$ld1-3%foo.""a\sb""]!%3#12>=7~") =
    Good [TLookback 2; TReplace [TAttributes [AClass CLetter; AClass CDigit] (Some (QRange 1 3));
           TClass (lit "foo") (Some QOneOrMore); TString (lit "a b")]; TNegate (TClass (lit "3") None);
          TVariable 12 OpGtEq 7; TAtEnd] [] /\
  parse_actions (lit "@1-12*#3=4%sw""x""?") =
    Good [ActDots [0x2801; 0x2803]%N; ActReplace; ActAssignment 3 4; ActSwapClass (lit "sw"); ActString (lit "x"); ActIgnore] [].
Proof. split; reflexivity. Qed.

(** ** C58 *)

(** An operand of a match rule is accepted iff, after its escapes are decoded, it is a way
    to write patterns ([operand_text], OperandSpec.v), and then it is read as these. *)
Theorem C58_patterns : forall sd s l,
  (exists rest, match_operand sd s = Good l rest) <-> exists t, Escaped true true s t /\ operand_text sd t l.
Proof. exact match_operand_spec. Qed.
Print Assumptions C58_patterns.
Theorem C58_otherwise_rejected : forall sd s,
  (forall l t, Escaped true true s t -> ~ operand_text sd t l) -> match_operand sd s = Bad.
Proof.
  intros sd s H. destruct (match_operand sd s) as [l r| |] eqn:E; [|reflexivity|].
  - destruct (proj1 (C58_patterns sd s l)) as (t & A & B); [eauto|]. destruct (H l t A B).
  - unfold match_operand in E. destruct (unescape EscMatchPattern s) as [t r| |] eqn:Eu; cbn [pbind] in E.
    + destruct (parse_match_total _ _ E).
    + discriminate.
    + destruct (unescape_total _ _ Eu).
Qed.
Print Assumptions C58_otherwise_rejected.
Theorem C58_one_reading : forall sd s l l', operand_text sd s l -> operand_text sd s l' -> l = l'.
Proof.
  intros sd s l l' A B. apply parse_match_spec in A as (r & A). apply parse_match_spec in B as (r' & B). congruence.
Qed.
Print Assumptions C58_one_reading.

(** A quantifier does not repeat the character before it but all the characters before it,
    up to the next special character. *)
Theorem C58_quantifier_repeats_run_refuted : forall sd,
  match_operand sd (lit "ab*") = Good [PZeroOrMore (PCharacters (lit "ab"))] [].
Proof. reflexivity. Qed.
Print Assumptions C58_quantifier_repeats_run_refuted.

(** the characters a pattern mentions *)
Inductive mentions (c : char) : pattern -> Prop :=
| mn_characters s : In c s -> mentions c (PCharacters s)
| mn_set s : In c s -> mentions c (PSet s)
| mn_group l p : In p l -> mentions c p -> mentions c (PGroup l)
| mn_not p : mentions c p -> mentions c (PNegate p)
| mn_optional p : mentions c p -> mentions c (POptional p)
| mn_many p : mentions c p -> mentions c (PZeroOrMore p)
| mn_more p : mentions c p -> mentions c (POneOrMore p)
| mn_left l l' p : In p l -> mentions c p -> mentions c (PEither l l')
| mn_right l l' p : In p l' -> mentions c p -> mentions c (PEither l l').
Lemma set_text_backslash s l : set_text s l -> ~ In 92%N l.
Proof.
  induction 1 as [|c s l N1 N2 T IH|c s l I T IH]; intros H; [destruct H| |].
  - destruct H as [->|H]; [exact (N2 eq_refl)|exact (IH H)].
  - destruct H as [->|H]; [|exact (IH H)]. simpl in I. intuition discriminate.
Qed.
Lemma special_backslash s : Forall (fun c => ~ In c special) s -> ~ In 92%N s.
Proof. intros F I. rewrite Forall_forall in F. apply (F _ I). vm_compute. tauto. Qed.
Lemma no_backslash sd :
  (forall s p r, inner_text sd s p r -> ~ mentions 92%N p) /\
  (forall s p r, pattern_text sd s p r -> ~ mentions 92%N p) /\
  (forall s l r, sequence_text sd s l r -> forall p, In p l -> ~ mentions 92%N p) /\
  (forall s l r, alternatives_text sd s l r -> forall p, In p l -> ~ mentions 92%N p).
Proof.
  assert (O : forall l p, one_of sd l p -> ~ mentions 92%N p) by (intros l p [| |]; intros M; inversion M).
  apply patterns_ind.
  - intros r M; inversion M.
  - intros r M; inversion M.
  - intros r M; inversion M.
  - intros; eapply O; eauto.
  - intros; eapply O; eauto.
  - intros s l r NE T M. inversion M; subst. eapply set_text_backslash; eauto.
  - intros s l r A IH M. inversion M; subst. eapply IH; eauto.
  - intros s p r T IH N M. inversion M; subst. exact (IH H0).
  - intros s r NE F B M. inversion M; subst. eapply special_backslash; eauto.
  - auto.
  - intros s p r T IH M. inversion M; subst. exact (IH H0).
  - intros s p r T IH M. inversion M; subst. exact (IH H0).
  - intros s p r T IH M. inversion M; subst. exact (IH H0).
  - intros s p r T IH q [->|[]]. exact IH.
  - intros s p s' l r T IH Ts IHs q [->|I]; [exact IH|exact (IHs q I)].
  - auto.
  - intros s l s' l' r A IHA T IH B q [<-|[]] M. inversion M; subst; [eapply IHA|eapply IH]; eauto.
Qed.
(** No operand matches a backslash, however it is written. *)
Theorem C58_backslash_cannot_be_written_refuted : forall sd s l rest,
  match_operand sd s = Good l rest -> forall p, In p l -> ~ mentions 92%N p.
Proof.
  intros sd s l rest H p I. destruct (proj1 (C58_patterns sd s l)) as (t & _ & O); [eauto|].
  destruct O as [|t|t l T B]; [destruct I|destruct I as [<-|[]]; intros M; inversion M|].
  exact (proj2 (proj2 (proj2 (no_backslash sd))) _ _ _ T p I).
Qed.
Print Assumptions C58_backslash_cannot_be_written_refuted.

Example C58_example :
  match_operand SPre (lit "(a|bc)+!%[^_3][x\]]?%a$") =
    Good [POneOrMore (PGroup [PEither [PCharacters (lit "a")] [PCharacters (lit "bc")]]);
          PNegate (PAttributesOrBoundary [AClass CSpace; AClass (CUser (lit "3"))] SPre);
          POptional (PSet (lit "x]")); PAttributes [AClass CLetter]; PBoundary SPre] [] /\
  match_operand SPost (lit "[\\]") = Bad /\ match_operand SPost (lit "\(") = Bad.
Proof. repeat split; reflexivity. Qed.
