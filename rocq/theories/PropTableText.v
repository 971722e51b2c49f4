(** Properties of reading tables: C39 and C54. *)
From Coq Require Import Strings.String ZArith.
From Coq Require Import List.
From Verif Require Import Base BaseProofs RuleModel BrailleModel OperandModel UnescapeSpec UnescapeProofs ParserModel LineSpec LineProofs LineFacts TableSpec TableTextProofs PipelineSpec.

(** ** C39 *)

(** Reading a table gives all its rules or all its errors.  The rules are exactly those
    written on the lines that are not blank or comments, with the number of their line, in
    the order of the lines; this happens when a rule is written on every such line. *)
Theorem C39_all_rules : forall ws text rules, parse_table ws text = inl rules ->
  increasing (map fst rules) /\
  (forall n r, In (n, r) rules <->
     exists l ts rest, is_line text n l /\ rule_line ws l /\ words l ts /\ written ts r rest) /\
  (forall n l ts, is_line text n l -> rule_line ws l -> words l ts -> exists r rest, written ts r rest).
Proof.
  intros ws text rules H. unfold parse_table in H.
  destruct (bad_lines (line_results ws 0 (lines text))) as [|e es] eqn:B; [|discriminate]. injection H as <-.
  split; [apply good_increasing, results_increasing|]. split.
  - intros n r. rewrite good_in. split.
    + intros (rest & I). apply results_in in I. destruct I as (i & l & L & -> & R & E).
      exists l, (tokens l), rest. replace (0 + i + 1) with (S i) by lia. split; [apply lines_ok, L|].
      split; [apply is_rule_line_ok, R|]. split; [apply tokens_words; reflexivity|]. apply rule_written. auto.
    + intros (l & ts & rest & L & R & W & Wr). exists rest. apply results_in. destruct n as [|n].
      { destruct L as (b & raw & a & _ & _ & Q & _). discriminate. }
      exists n, l. split; [apply lines_ok, L|]. split; [lia|]. split; [apply is_rule_line_ok, R|].
      apply tokens_words in W. subst ts. symmetry. apply rule_written, Wr.
  - intros n l ts L R W. destruct n as [|n].
    { destruct L as (b & raw & a & _ & _ & Q & _). discriminate. }
    destruct (p_rule ts) as [r rest|e|] eqn:E.
    + exists r, rest. apply rule_written, E.
    + exfalso. assert (I : In (S n, e) (bad_lines (line_results ws 0 (lines text)))).
      { apply bad_in, results_in. exists n, l. split; [apply lines_ok, L|]. split; [lia|]. split; [apply is_rule_line_ok, R|].
        apply tokens_words in W. subst ts. symmetry. exact E. }
      rewrite B in I. destruct I.
    + destruct (rule_ends _ E).
Qed.
Print Assumptions C39_all_rules.

(** Otherwise there is an error for every line that is not blank or a comment and on which
    no rule is written, with the number of the line, in the order of the lines, and no other
    error. *)
Theorem C39_all_errors : forall ws text errors, parse_table ws text = inr errors ->
  errors <> [] /\ increasing (map fst errors) /\
  (forall n, (exists e, In (n, e) errors) <->
     exists l ts, is_line text n l /\ rule_line ws l /\ words l ts /\ forall r rest, ~ written ts r rest) /\
  (forall n e l ts, In (n, e) errors -> is_line text n l -> words l ts -> p_rule ts = Failed e).
Proof.
  intros ws text errors H. unfold parse_table in H.
  destruct (bad_lines (line_results ws 0 (lines text))) as [|e0 es] eqn:B; [discriminate|]. injection H as <-. rewrite <- B in *.
  split; [rewrite B; discriminate|]. split; [apply bad_increasing, results_increasing|]. split.
  - intros n. split.
    + intros (e & I). apply bad_in, results_in in I. destruct I as (i & l & L & -> & R & E).
      exists l, (tokens l). replace (0 + i + 1) with (S i) by lia. split; [apply lines_ok, L|].
      split; [apply is_rule_line_ok, R|]. split; [apply tokens_words; reflexivity|]. intros r rest W. apply rule_written in W. congruence.
    + intros (l & ts & L & R & W & N). destruct n as [|n].
      { destruct L as (b & raw & a & _ & _ & Q & _). discriminate. }
      destruct (p_rule ts) as [r rest|e|] eqn:E.
      * destruct (N r rest). apply rule_written, E.
      * exists e. apply bad_in, results_in. exists n, l. split; [apply lines_ok, L|]. split; [lia|]. split; [apply is_rule_line_ok, R|].
        apply tokens_words in W. subst ts. symmetry. exact E.
      * destruct (rule_ends _ E).
  - intros n e l ts I L W. apply bad_in, results_in in I. destruct I as (i & l' & L' & -> & R & E).
    replace (0 + i + 1) with (S i) in L by lia. apply lines_ok in L. rewrite L in L'. injection L' as ->.
    apply tokens_words in W. subst ts. symmetry. exact E.
Qed.
Print Assumptions C39_all_errors.

(** The rules are read exactly when a rule is written on every line that is not blank or a
    comment. *)
Theorem C39_when : forall ws text,
  (exists rules, parse_table ws text = inl rules) <->
  (forall n l ts, is_line text n l -> rule_line ws l -> words l ts -> exists r rest, written ts r rest).
Proof.
  intros ws text. split.
  - intros (rules & H). apply (C39_all_rules _ _ _ H).
  - intros H. destruct (parse_table ws text) as [rules|errors] eqn:E; [eauto|]. exfalso.
    destruct (C39_all_errors _ _ _ E) as (N & _ & Q & _). destruct errors as [|[n e] es]; [congruence|].
    destruct (proj1 (Q n) (ex_intro _ e (or_introl eq_refl))) as (l & ts & L & R & W & NW).
    destruct (H n l ts L R W) as (r & rest & Wr). destruct (NW r rest Wr).
Qed.
Print Assumptions C39_when.

(** A line and its words are determined by the text. *)
Theorem C39_lines_determined : forall text n l1 l2 ts1 ts2,
  is_line text n l1 -> is_line text n l2 -> words l1 ts1 -> words l2 ts2 -> l1 = l2 /\ ts1 = ts2.
Proof.
  intros text n l1 l2 ts1 ts2 L1 L2 W1 W2. destruct n as [|n].
  { destruct L1 as (b & raw & a & _ & _ & Q & _). discriminate. }
  apply lines_ok in L1. apply lines_ok in L2. rewrite L1 in L2. injection L2 as <-. split; [reflexivity|].
  apply tokens_words in W1. apply tokens_words in W2. congruence.
Qed.
Print Assumptions C39_lines_determined.

(** The text between two line feeds is the same line whatever surrounds it: text added
    after a line feed does not change the lines before it. *)
Theorem C39_lines_local : forall text more n l,
  (text = [] \/ exists t, text = t ++ [10%N]) ->
  is_line text n l -> is_line (text ++ more) n l.
Proof.
  intros text more n l T (before & raw & after & -> & Hb & Hn & Hr & Hc). exists before, raw, (after ++ more).
  split; [rewrite <- !app_assoc; reflexivity|]. split; [exact Hb|]. split; [exact Hn|]. split; [exact Hr|]. right.
  destruct Hc as [(-> & Nr & ->)|((a & ->) & Hc)].
  - exfalso. rewrite app_nil_r in T. destruct T as [T|(t & T)].
    + apply app_eq_nil in T. destruct T as [_ ->]. congruence.
    + destruct raw as [|x raw' _] using rev_ind; [congruence|]. rewrite app_assoc in T. apply app_inj_tail in T. destruct T as [_ ->].
      apply Hr, in_app_iff. right. left. reflexivity.
  - split; [eexists; reflexivity|exact Hc].
Qed.
Print Assumptions C39_lines_local.

(** ** C54 *)

(** A line is accepted, and as this rule, exactly when the rule is written on it: marks,
    conditions, opcode, operands. *)
Theorem C54_rule_lines : forall ts r rest, p_rule ts = Parsed r rest <-> written ts r rest.
Proof. exact rule_written. Qed.
Print Assumptions C54_rule_lines.

(** Words stand for one rule only. *)
Theorem C54_one_reading : forall ts r1 r2 rest1 rest2, written ts r1 rest1 -> written ts r2 rest2 -> r1 = r2 /\ rest1 = rest2.
Proof. intros ts r1 r2 rest1 rest2 H1 H2. apply rule_written in H1. apply rule_written in H2. rewrite H1 in H2. injection H2 as -> ->. auto. Qed.
Print Assumptions C54_one_reading.

(** Reading a line ends, with a rule or an error. *)
Theorem C54_ends : forall ts, (exists r rest, p_rule ts = Parsed r rest) \/ (exists e, p_rule ts = Failed e).
Proof. intros ts. destruct (p_rule ts) as [r rest|e|] eqn:E; [left; eauto|right; eauto|destruct (rule_ends _ E)]. Qed.
Print Assumptions C54_ends.

(** A word in the place of the opcode that is not an opcode is an error with this word. *)
Theorem C54_unknown_opcode : forall k w m name operands, one_way k -> match_words m ->
  ~ In name [lit "nofor"; lit "noback"; lit "nocross"; lit "before"; lit "after"; lit "empmatchbefore"; lit "empmatchafter"] ->
  (forall r items, spelling r <> Some (name, items)) ->
  p_rule (mark_words k ++ class_words w ++ m ++ name :: operands) = Failed (EOpcode (Some name)).
Proof. exact unknown_opcode. Qed.
Print Assumptions C54_unknown_opcode.

(** Marks that the opcode does not permit are an error that names them, whatever the
    operands. *)
Theorem C54_forbidden_marks : forall k w m name op operands, one_way k -> match_words m ->
  In (name, op) opcode_table -> ~ permits name k ->
  exists bad, p_rule (mark_words k ++ class_words w ++ m ++ name :: operands) = Failed (EConstraints bad op) /\
    (nofor bad = true <-> nofor k = true /\ ~ In name (with_any_mark ++ with_direction)) /\
    (noback bad = true <-> noback k = true /\ ~ In name (with_any_mark ++ with_direction)) /\
    (nocross bad = true <-> nocross k = true /\ ~ In name with_any_mark).
Proof.
  intros k w m name op operands O M I P.
  assert (EX : forall l, existsb (str_eqb name) l = true <-> In name l).
  { intros l. split; [apply in_names|]. intros J. apply existsb_exists. exists name. split; [exact J|apply str_eqb_eq; reflexivity]. }
  pose proof (lookup_in _ _ I) as L.
  destruct (front_read k w m name operands O M (opcode_names _ _ L)) as (E1 & E2 & E3).
  exists (only_permitted name k). split.
  - unfold p_rule. rewrite E1, E2, E3. unfold rbind, p_opcode, p_token. unfold rbind. rewrite L. cbn [p_return].
    apply body_forbidden; [exact I|]. unfold only_permitted. destruct (existsb (str_eqb name) with_any_mark) eqn:A; [destruct P; left; apply EX, A|].
    destruct (existsb (str_eqb name) with_direction) eqn:D.
    + intros Q. destruct P. right. left. split; [apply EX, D|]. injection Q as Q. exact Q.
    + intros Q. destruct P. right. right. exact Q.
  - rewrite in_app_iff, <- !EX. unfold only_permitted.
    destruct (existsb (str_eqb name) with_any_mark) eqn:A; [destruct P; left; apply EX, A|].
    destruct (existsb (str_eqb name) with_direction) eqn:D; cbn [nofor noback nocross].
    + clear. intuition congruence.
    + clear. intuition congruence.
Qed.
Print Assumptions C54_forbidden_marks.

(** No rule of a table that was read is marked both nofor and noback. *)
Theorem C54_marked_once : forall ws text rules, parse_table ws text = inl rules -> marked_once (map snd rules).
Proof.
  intros ws text rules H r I [F B]. apply in_map_iff in I. destruct I as ([n r'] & <- & I). cbn [snd] in *.
  destruct (proj1 (proj1 (proj2 (C39_all_rules _ _ _ H)) n r') I) as (l & ts & rest & _ & _ & _ & W).
  destruct W as (k & w & m & name & items & operands & _ & O & _ & _ & _ & _ & _ & [K|K] & _); unfold marked_nofor, marked_noback in *.
  - destruct F as (k1 & K1 & F), B as (k2 & K2 & B). apply O. split; congruence.
  - destruct F as (k1 & K1 & F). congruence.
Qed.
Print Assumptions C54_marked_once.

(** Words after the operands do not matter, except for the opcodes that take all that is
    left or an optional word. *)
Definition takes_more (r : rule) : Prop := match r with RMultind _ _ _ | RReplace _ None => True | _ => False end.
Lemma reads_more i ts rest more : (match i with Names _ | Maybe None => False | _ => True end) -> reads i ts rest -> reads i (ts ++ more) (rest ++ more).
Proof. intros N R. destruct R; cbn [app]; try (econstructor; eauto; fail); destruct N. Qed.
Lemma reads_all_more l ts rest more : Forall (fun i => match i with Names _ | Maybe None => False | _ => True end) l ->
  reads_all l ts rest -> reads_all l (ts ++ more) (rest ++ more).
Proof.
  intros F R. induction R as [|i l ts mid rest R1 R2 IH]; [constructor|]. inversion F; subst.
  econstructor; [apply reads_more; eassumption|auto].
Qed.
Theorem C54_words_after : forall ts r rest more, written ts r rest -> ~ takes_more r -> written (ts ++ more) r (rest ++ more).
Proof.
  intros ts r rest more (k & w & m & name & items & operands & -> & O & M & Sp & R & B & P & KK & W) T.
  exists k, w, m, name, items, (operands ++ more). split; [rewrite <- !app_assoc; reflexivity|].
  repeat (split; [assumption|]). split; [|auto]. apply reads_all_more; [|exact R].
  destruct r; cbn [spelling] in Sp; try discriminate Sp; injection Sp as _ <-; cbn [takes_more] in T;
    try (destruct replacement; [|destruct (T Coq.Init.Logic.I)]); try (destruct (T Coq.Init.Logic.I)); repeat constructor.
Qed.
Print Assumptions C54_words_after.

(** "replace" with one word takes another one. *)
Theorem C54_words_after_refuted : exists ts r rest more, written ts r rest /\ ~ written (ts ++ more) r (rest ++ more).
Proof.
  exists [lit "replace"; lit "a"], (RReplace (lit "a") None), [], [lit "b"]. split.
  - apply rule_written. vm_compute. reflexivity.
  - intros H. apply rule_written in H. vm_compute in H. discriminate.
Qed.
Print Assumptions C54_words_after_refuted.

(** The simple reading "what is written in front of an opcode has an effect" fails: the
    conditions before and after are accepted in front of every opcode and dropped by those
    that do not take them; empmatchbefore and empmatchafter are always dropped. *)
Theorem C54_conditions_dropped_refuted : forall k w m name operands r rest, one_way k -> match_words m ->
  written (mark_words k ++ class_words w ++ m ++ name :: operands) r rest ->
  In name (map fst opcode_table) ->
  written (mark_words k ++ class_words w ++ name :: operands) r rest /\
  (rule_classes r = None -> forall w', written (mark_words k ++ class_words w' ++ name :: operands) r rest).
Proof.
  intros k w m name operands r rest O M W I. apply in_map_iff in I. destruct I as ([name' op] & E & I). cbn [fst] in E. subst name'.
  pose proof (lookup_in _ _ I) as L.
  pose proof (opcode_names _ _ L) as NS. apply rule_written in W. unfold p_rule in W.
  destruct (front_read k w m name operands O M NS) as (E1 & E2 & E3). rewrite E1, E2, E3 in W.
  assert (X : forall w', p_rule (mark_words k ++ class_words w' ++ name :: operands) = rbind p_opcode (p_body k w') (name :: operands)).
  { intros w'. destruct (front_read k w' [] name operands O (Forall_nil _) NS) as (F1 & F2 & F3). cbn [app] in F1, F2, F3.
    unfold p_rule. rewrite F1, F2, F3. reflexivity. }
  split; [apply rule_written; rewrite X; exact W|]. intros N w'. apply rule_written. rewrite X.
  unfold rbind, p_opcode in *. cbn [p_token] in *. unfold rbind, p_token in *. rewrite L in *. cbn [p_return] in *.
  destruct (body_written _ _ _ _ _ _ W) as (name' & items & L' & Sp & R & B & P & KK & WW).
  eapply body_reads; eauto.
Qed.
Print Assumptions C54_conditions_dropped_refuted.

(** "grouping" accepts nofor and noback and drops them. *)
Theorem C54_grouping_marks_refuted : forall k name chars l r rest operands, one_way k -> nocross k = false ->
  written (lit "grouping" :: operands) (RGrouping name chars l r) rest ->
  written (mark_words k ++ lit "grouping" :: operands) (RGrouping name chars l r) rest.
Proof.
  intros k name chars l r rest operands O N (k0 & w & m & name' & items & ops & E & O0 & M & Sp & R & B & P & KK & W).
  cbn [spelling] in Sp. injection Sp as <- <-.
  assert (Q : k0 = no_constraints /\ w = [] /\ m = [] /\ ops = operands).
  { destruct k0 as [[] [] []]; cbn in E; try discriminate E.
    destruct w as [|[c|c] w]; cbn in E; try discriminate E.
    destruct M as [|t m [->| ->] M]; cbn in E; try discriminate E. injection E as <-. auto. }
  destruct Q as (-> & -> & -> & ->). exists k, [], [], (lit "grouping"), [Name name; Text chars; CellList [l; r]], operands.
  split; [reflexivity|]. split; [exact O|]. split; [constructor|]. split; [reflexivity|]. split; [exact R|]. split; [exact B|].
  split; [right; left; split; [vm_compute; tauto|exact N]|]. split; right; reflexivity.
Qed.
Print Assumptions C54_grouping_marks_refuted.

(** ** Examples *)
Definition ex_ws (c : char) : bool := mem c [9; 10; 11; 12; 13; 32; 133; 160]%N.
Definition ex_newline : str := [10%N].
Definition ex_table_text : str :=
  lit "# letters" ++ ex_newline ++ lit "letter a 1 first" ++ [13%N] ++ ex_newline ++ ex_newline ++
  lit "   nofor nocross always ab 1-12" ++ ex_newline ++ lit "after digit noback word by =".
Definition ex_wrong_text : str :=
  lit "letter a 1" ++ ex_newline ++ lit "nocross letter b 12" ++ ex_newline ++ lit "# x" ++ ex_newline ++ lit "leter c 14" ++ ex_newline ++ lit "letter cd 14".
Example C39_example : exists r1 r2, parse_table ex_ws (lit "# letters" ++ ex_newline ++ lit "letter a 1 first" ++ [13%N] ++ ex_newline ++ ex_newline ++
  lit "   nofor nocross always ab 1-12" ++ ex_newline) = inl [(2, r1); (4, r2)] /\
  r1 = RLetter 97%N [10241%N] no_constraints /\
  r2 = RAlways (lit "ab") (Explicit [10241; 10243]%N) (mk_constraints true false true) [].
Proof. eexists; eexists. split; [vm_compute; reflexivity|]. split; reflexivity. Qed.
(** [noback] must come before the conditions *)
Example C39_example_order : parse_table ex_ws ex_table_text = inr [(5, EOpcode (Some (lit "noback")))].
Proof. vm_compute. reflexivity. Qed.
Example C39_example_errors : parse_table ex_ws ex_wrong_text =
  inr [(2, EConstraints (mk_constraints false false true) OLetter); (4, EOpcode (Some (lit "leter"))); (5, ESingleChar (Some (lit "cd")))].
Proof. vm_compute. reflexivity. Qed.
Example C54_example_unknown : p_rule [lit "nofor"; lit "before"; lit "digit"; lit "leter"; lit "a"; lit "1"] = Failed (EOpcode (Some (lit "leter"))).
Proof.
  apply (C54_unknown_opcode (mk_constraints true false false) [WBefore (lit "digit")] [] (lit "leter")); [intros [_ H]; discriminate|constructor| |].
  - intros H. repeat (destruct H as [H|H]; [discriminate H|]). destruct H.
  - intros r items H. destruct r; cbn [spelling] in H; discriminate H.
Qed.
Example C54_example_marks : ~ permits (lit "letter") (mk_constraints true false true) /\ one_way (mk_constraints true false true).
Proof.
  split; [|intros [_ H]; discriminate]. intros [H|[[_ H]|H]]; try discriminate H.
  vm_compute in H. repeat (destruct H as [H|H]; [discriminate H|]). destruct H.
Qed.
Example C54_example_condition : written [lit "before"; lit "digit"; lit "letter"; lit "a"; lit "1"] (RLetter 97%N [10241%N] no_constraints) [].
Proof. apply rule_written. vm_compute. reflexivity. Qed.
Example C54_example_grouping : exists r, written [lit "grouping"; lit "paren"; lit "()"; lit "126,345"] r [] /\
  written [lit "nofor"; lit "grouping"; lit "paren"; lit "()"; lit "126,345"] r [].
Proof. eexists. split; apply rule_written; vm_compute; reflexivity. Qed.
