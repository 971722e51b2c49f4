(** C23 (accepted operands compile), C35 (escapes in operands), C45 (variable steps). *)
From Verif Require Import Base BaseProofs RuleModel TranslationModel TableModel BrailleModel
  RegexpModel PatternModel OperandModel OperandProofs OperandProofs2 UnescapeSpec UnescapeProofs.

(** ** C35 *)

(** Decoding an operand succeeds exactly if the operand is made of plain characters and
    documented escapes, and yields the text it stands for ([Escaped], UnescapeSpec.v).
    In operands of match rules the escapes of brackets are kept for the pattern parser.
    [true]: a plus sign in front of the hexadecimal digits is tolerated. *)
Theorem C35_decoding_exact : forall k s t,
  unescape k s = Good t [] <-> Escaped (keeps k) true s t.
Proof. exact unescape_spec. Qed.
Print Assumptions C35_decoding_exact.

(** Every other operand is rejected: decoding always ends, with a text or with an error. *)
Theorem C35_malformed_rejected : forall k s,
  (forall t, ~ Escaped (keeps k) true s t) -> unescape k s = Bad.
Proof.
  intros k s H. destruct (unescape k s) as [t r| |] eqn:E; [|reflexivity|destruct (unescape_total _ _ E)].
  pose proof (unescape_rest _ _ _ _ E) as ->. destruct (H t). apply unescape_spec, E.
Qed.
Print Assumptions C35_malformed_rejected.

(** Operands without a plus sign are decoded as documented. *)
Theorem C35_documented_syntax : forall k s t, ~ In 43%N s ->
  (unescape k s = Good t [] <-> Escaped (keeps k) false s t).
Proof.
  intros k s t H. rewrite unescape_spec. split; [apply escaped_no_plus, H|apply escaped_weaken, H].
Qed.
Print Assumptions C35_documented_syntax.

(** Text without backslashes is unchanged. *)
Theorem C35_plain_text : forall k s, ~ In 92%N s -> unescape k s = Good s [].
Proof.
  intros k s H. apply unescape_spec. induction s as [|c s IH]; [constructor|].
  constructor; [intros ->; apply H; left; reflexivity|]. apply IH. intros I. apply H. right. exact I.
Qed.
Print Assumptions C35_plain_text.

(** Every text can be written: there is an operand of printable ASCII characters
    (so no white space, which separates operands) that is decoded to it. *)
Theorem C35_every_text_can_be_written : forall k t, Forall scalar t ->
  exists s, Forall printable s /\ unescape k s = Good t [].
Proof.
  intros k t H. destruct (every_text_writable (keeps k) t H) as (s & P & E).
  exists s. split; [exact P|]. apply unescape_spec, E.
Qed.
Print Assumptions C35_every_text_can_be_written.

(** What is decoded consists of characters only (no surrogates), and is not empty unless
    the operand is. *)
Theorem C35_result_is_text : forall k s t, unescape k s = Good t [] -> Forall scalar s ->
  Forall scalar t /\ length t <= length s /\ (s <> [] -> t <> []).
Proof.
  intros k s t H F. apply unescape_spec in H. destruct (escaped_facts _ _ _ H) as (A & B & C). auto.
Qed.
Print Assumptions C35_result_is_text.

(** "Malformed escapes are reported" does not hold for a plus sign: [\x+041] is decoded
    to the letter A. *)
Theorem C35_malformed_hex_refuted :
  unescape EscDefault (lit "\x+041") = Good [65%N] [] /\
  ~ Escaped false false (lit "\x+041") [65%N].
Proof.
  split; [reflexivity|]. change (lit "\x+041") with [92; 120; 43; 48; 52; 49]%N.
  assert (G : forall h s, h ++ s = [43; 48; 52; 49]%N -> length h = 4 -> forall v, ~ Number16 false h v).
  { intros h s E L v Nm. inversion Nm as [h' v' D|h' v' X D]; subst; [|discriminate].
    destruct h as [|c h]; [discriminate|]. injection E as -> E. apply digits_not_plus in D. apply D. reflexivity. }
  assert (G5 : forall h s, h ++ s = [43; 48; 52; 49]%N -> length h <> 5).
  { intros h s E L. apply (f_equal (@length N)) in E. rewrite app_length in E. unfold char in *. rewrite L in E. simpl in E. lia. }
  intros H. inversion H; subst; try discriminate; try congruence;
    try match goal with K : In _ named_escapes |- _ =>
      simpl in K; repeat (destruct K as [K|K]; [discriminate K|]); destruct K end;
    eapply G; try eassumption.
Qed.
Print Assumptions C35_malformed_hex_refuted.

Example C35_example :
  unescape EscDefault (lit "a\s\\\x00e9\xd83d\xde00\xd83dz\y1f600")
    = Good [97; 32; 92; 233; 128512; 65533; 122; 128512]%N [] /\
  unescape EscDefault (lit "a\q") = Bad /\ unescape EscDefault (lit "a\x12") = Bad /\
  unescape EscDefault (lit "a\") = Bad /\
  unescape EscMatchPattern (lit "\(\]") = Good (lit "\(\]") [].
Proof. repeat split. Qed.

(** ** C23 *)

(** The test and action parsers end on every operand with a result or an error. *)
Theorem C23_parsers_terminate : forall sd s,
  parse_tests s <> NoFuel /\ parse_actions s <> NoFuel /\ match_operand sd s <> NoFuel.
Proof.
  intros sd s. split; [apply parse_tests_total|]. split; [apply parse_actions_total|].
  unfold match_operand. destruct (unescape EscMatchPattern s) as [t r| |] eqn:E; cbn [pbind].
  - apply parse_match_total.
  - discriminate.
  - destruct (unescape_total _ _ E).
Qed.
Print Assumptions C23_parsers_terminate.

(** An accepted test of a context, correct or pass2-4 rule panics when it is compiled iff
    it compares a variable with [<], [<=], [>] or [>=]. *)
Theorem C23_accepted_tests_compile : forall ctx s ts,
  parse_tests s = Good ts [] ->
  (re_of_instrs ctx (add_implicit_replace ts) = None <-> existsb has_comparison ts = true).
Proof. intros ctx s ts H. apply re_of_instrs_none. eapply parse_tests_wf, H. Qed.
Print Assumptions C23_accepted_tests_compile.

(** So it does not panic if the operand contains neither [<] nor [>]. *)
Theorem C23_tests_without_comparison_compile : forall ctx s ts,
  ~ In 60%N s -> ~ In 62%N s -> parse_tests s = Good ts [] ->
  exists r, re_of_instrs ctx (add_implicit_replace ts) = Some r.
Proof.
  intros ctx s ts A B H. destruct (re_of_instrs ctx (add_implicit_replace ts)) as [r|] eqn:E; [eauto|].
  apply (C23_accepted_tests_compile ctx s ts H) in E.
  rewrite (parse_tests_cmp s ts []) in E; [discriminate| |exact H].
  unfold no_angle. apply forallb_forall. intros c Hc.
  destruct (N.eqb_spec c 60) as [->|]; [contradiction|]. destruct (N.eqb_spec c 62) as [->|]; [contradiction|]. reflexivity.
Qed.
Print Assumptions C23_tests_without_comparison_compile.

(** The claim fails of [correct "a"#1<2 ...] and of [match !(!a) ...]: accepted, and a
    panic when the table is compiled. *)
Theorem C23_accepted_test_compiles_refuted :
  exists ts, parse_tests (lit """a""#1<2") = Good ts [] /\
             forall ctx, re_of_instrs ctx (add_implicit_replace ts) = None.
Proof. eexists. split; [vm_compute; reflexivity|]. intros ctx. reflexivity. Qed.
Print Assumptions C23_accepted_test_compiles_refuted.
Theorem C23_accepted_match_compiles_refuted :
  exists ps, match_operand SPre (lit "!(!a)") = Good ps [] /\
             forall ctx, re_of_patterns ctx ps = None.
Proof. eexists. split; [vm_compute; reflexivity|]. intros ctx. reflexivity. Qed.
Print Assumptions C23_accepted_match_compiles_refuted.

Example C23_example :
  (exists ts, parse_tests (lit "_1[$l2-3""a\""b""]!%foo.~") = Good ts [] /\
     existsb has_comparison ts = false) /\
  (exists ps, match_operand SPost (lit "(a|b)+!%[^_~][c\]]?") = Good ps [] /\
     existsb nested_negation ps = false /\ ps <> []).
Proof.
  split; eexists; (split; [vm_compute; reflexivity|]); [reflexivity|split; [reflexivity|discriminate]].
Qed.

(** ** C45: which variable actions are accepted *)

(** The documented actions [#n+] and [#n-] are never accepted, alone or in a sequence. *)
Theorem C45_variable_steps_rejected_refuted : forall s ts r,
  parse_actions s = Good ts r -> forall v, ~ In (ActIncrement v) ts /\ ~ In (ActDecrement v) ts.
Proof.
  intros s ts r H v. apply parse_actions_no_step in H.
  split; intros I; assert (X : existsb is_step ts = true)
    by (apply existsb_exists; eexists; split; [exact I|reflexivity]); congruence.
Qed.
Print Assumptions C45_variable_steps_rejected_refuted.
Example C45_example :
  parse_actions (lit "#1+") = Bad /\ parse_actions (lit "#1-*") = Bad /\
  (exists ts, parse_actions (lit "#1=2*") = Good ts [] /\ length ts = 2).
Proof. repeat split. eexists. split; [vm_compute; reflexivity|reflexivity]. Qed.

(** A match operand that begins with [-] is accepted whatever follows, and what follows is
    ignored: it matches everywhere. *)
Theorem C46_hyphen_operand_ignores_rest_refuted : forall sd s,
  parse_match_pattern sd (45%N :: s) = Good [PEmpty] s.
Proof. reflexivity. Qed.
Print Assumptions C46_hyphen_operand_ignores_rest_refuted.
