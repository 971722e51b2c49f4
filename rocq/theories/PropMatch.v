(** C49 (match rules), C46 (operands that start with a hyphen). *)
From Coq Require Import Strings.String.
From Coq Require Import List.
From Verif Require Import Base BaseProofs RuleModel TranslationModel TableModel TableProofs RegexpModel RegexpSpec
  RegexpCorrect PatternModel OperandModel OperandProofs OperandProofs2 UnescapeProofs TestSpec PatternProofs MatchSpec MatchProofs.

(** [rule_fits]: [pre] fits from the cursor to [s], there the text of the rule stands
    without regard to the case of the input, and [post] fits from its end to [j]. *)
Definition rule_fits (lower : char -> list char) (ctx : classes) (at_start : bool) (text : str)
    (pre : list pattern) (chars : str) (post : list pattern) (s j : nat) : Prop :=
  let R := pats_rel (fun k c => In (k, c) ctx) at_start text in
  R pre 0 s /\
  (forall k x, nth_error chars k = Some x -> exists a, nth_error text (s + k) = Some a /\ lower a = [x]) /\
  R post (s + length chars) j.

(** A match rule is offered at a cursor iff its parts fit; the offer covers exactly the
    text of the rule, at its offset, and nothing of what the patterns matched. *)
Theorem C49_match_rule_exact : forall lower ctx pre chars post dots o p at_start text,
  existsb nested_negation pre = false -> existsb nested_negation post = false ->
  match_insert ctx pre chars post dots o = TOk p ->
  exists r, match_find lower [p] at_start text = Ok r /\
    match r with
    | [] => forall s j, ~ rule_fits lower ctx at_start text pre chars post s j
    | [t] => exists s j, rule_fits lower ctx at_start text pre chars post s j /\
        s + length chars <= j /\ j <= length text /\
        r_offset t = s /\ r_length t = length chars /\ r_input t = chars /\ r_output t = dots /\
        r_weight t = j /\ r_origin t = Some o
    | _ => False
    end.
Proof.
  intros lower ctx pre chars post dots o p at_start text N1 N2 C.
  unfold match_insert in C. destruct (re_of_match ctx pre chars post) as [r|] eqn:Er; [|discriminate].
  injection C as <-.
  destruct (match_found lower ctx (env_get env_new) at_start text pre chars post r N1 N2 Er) as (res & Ef & H).
  unfold match_find. cbn [cpats_find]. unfold cpat_find. cbn [cp_re cp_payload]. rewrite Ef.
  destruct res as [f|]; cbn [bind].
  - destruct H as (s & j & P1 & P2 & P3 & H1 & H2 & ->). eexists. split; [reflexivity|].
    exists s, j. split; [split; [exact P1|split; [exact P2|exact P3]]|]. split; [exact H1|]. split; [exact H2|].
    repeat split.
  - eexists. split; [reflexivity|]. intros s j (P1 & P2 & P3). apply (H s j). auto.
Qed.
Print Assumptions C49_match_rule_exact.

(** Accepted operands without nested negation always give such a rule. *)
Theorem C49_accepted_rules_compile : forall ctx pre chars post pre_operand post_operand rest1 rest2 dots o,
  pre_operand <> [] -> post_operand <> [] ->
  match_operand SPre pre_operand = Good pre rest1 -> match_operand SPost post_operand = Good post rest2 ->
  existsb nested_negation pre = false -> existsb nested_negation post = false ->
  exists p, match_insert ctx pre chars post dots o = TOk p.
Proof.
  intros ctx pre chars post s1 s2 rest1 rest2 dots o NE1 NE2 H1 H2 N1 N2.
  assert (G : forall sd s ps rest, s <> [] -> match_operand sd s = Good ps rest -> existsb nested_negation ps = false ->
              exists re, re_of_patterns ctx ps = Some re).
  { intros sd s ps rest NE H NN. unfold match_operand in H.
    destruct (unescape EscMatchPattern s) as [t r'| |] eqn:E; try discriminate. cbn [pbind] in H.
    pose proof (unescape_rest _ _ _ _ E) as ->. apply unescape_spec in E.
    destruct (escaped_facts _ _ _ E) as (_ & NE' & _). specialize (NE' NE).
    destruct (parse_match_wf sd t ps rest NE' H) as [W1 W2]. apply re_of_patterns_some; auto. }
  destruct (G _ _ _ _ NE1 H1 N1) as (a & Ea). destruct (G _ _ _ _ NE2 H2 N2) as (b & Eb).
  unfold match_insert, re_of_match. rewrite Ea, Eb. simpl. eauto.
Qed.
Print Assumptions C49_accepted_rules_compile.

(** Which rule is offered by several: all those that fit, in the order of the table. *)
Theorem C49_all_rules_looked_up : forall lower p ps at_start text l,
  match_find lower (p :: ps) at_start text = Ok l <->
  exists l1 l2, match_find lower [p] at_start text = Ok l1 /\ match_find lower ps at_start text = Ok l2 /\ l = l1 ++ l2.
Proof.
  intros lower p ps at_start text l. unfold match_find. cbn [cpats_find].
  destruct (cpat_find lower p env_new at_start text) as [o| |]; cbn [bind].
  - destruct (cpats_find lower ps env_new at_start text) as [l2| |]; cbn [bind].
    + split.
      * intros [= <-]. destruct o as [t|]; eexists; eexists; split; try reflexivity; split; reflexivity.
      * intros (l1 & l2' & E1 & E2 & ->). injection E2 as <-. destruct o; injection E1 as <-; reflexivity.
    + split; [discriminate|]. intros (l1 & l2 & _ & E & _). discriminate.
    + split; [discriminate|]. intros (l1 & l2 & _ & E & _). discriminate.
  - split; [discriminate|]. intros (l1 & l2 & E & _). discriminate.
  - split; [discriminate|]. intros (l1 & l2 & E & _). discriminate.
Qed.
Print Assumptions C49_all_rules_looked_up.

(** An operand that starts with a hyphen is accepted whatever follows, and fits exactly
    the empty stretch, at every position: the rest of the operand is ignored. *)
Theorem C46_hyphen_operand_fits_everywhere : forall sd s t,
  unescape EscMatchPattern s = Good t [] ->
  match_operand sd (45%N :: s) = Good [PEmpty] t /\
  forall members at_start text i j, pats_rel members at_start text [PEmpty] i j <-> j = i.
Proof.
  intros sd s t H. split.
  - unfold match_operand.
    assert (E : unescape EscMatchPattern (45%N :: s) = Good (45%N :: t) []).
    { apply unescape_spec. apply UnescapeSpec.E_plain; [discriminate|]. apply unescape_spec, H. }
    rewrite E. reflexivity.
  - intros members at_start text i j. unfold pats_rel. simpl. unfold then_rel, here, polar. split.
    + intros (k & [-> _] & -> & _). reflexivity.
    + intros ->. exists i. auto.
Qed.
Print Assumptions C46_hyphen_operand_fits_everywhere.

(** Instances: a word boundary or digits before, a class after; upper case in the input. *)
Definition m_lower (c : char) : list char := if (N.leb 65 c && N.leb c 90)%bool then [(c + 32)%N] else [c].
Definition m_ctx : classes := [(CDigit, 49%N); (CDigit, 50%N); (CSpace, 32%N)].
Definition m_find (pre post text : String.string) : option (res (list (nat * nat * nat))) :=
  match match_operand SPre (lit pre), match_operand SPost (lit post) with
  | Good a _, Good b _ =>
      match match_insert m_ctx a (lit "foo") b (lit "x") (RAlways (lit "foo") Implicit no_constraints []) with
      | TOk p => Some (do l <- match_find m_lower [p] true (lit text);
                       Ok (map (fun t => (r_offset t, r_length t, r_weight t)) l))
      | _ => None
      end
  | _, _ => None
  end.
Arguments m_find pre%string post%string text%string.
Example C49_example :
  m_find "%[^#]+" "!%#" "12FOO." = Some (Ok [(2, 3, 6)]) /\
  m_find "%[^#]+" "!%#" "12FOO2" = Some (Ok []) /\
  m_find "-anything" "(a|%#)?" "FOO2" = Some (Ok [(0, 3, 4)]).
Proof. repeat split; vm_compute; reflexivity. Qed.
