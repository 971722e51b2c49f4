(** C55: building a translator; C36: = with a character that is not defined; C23: match
    operands. *)
From Coq Require Import List Strings.String Permutation.
From Verif Require Import Base BaseProofs RuleModel TranslationModel TableModel TableProofs RegexpModel PatternModel TrieModel
  BrailleModel HyphenationModel OperandModel OperandProofs OperandProofs2 UnescapeSpec UnescapeProofs LoopModel CompileModel ConstraintModel IndicatorModel
  PipelineModel MainPass ParserModel LineSpec TableSpec TableTextProofs PropTableText IncludeModel IncludeSpec IncludeProofs PropInclude
  TranslatorModel PipelineSpec PipelineProofs FaultSpec NegationProofs FaultProofs PropTable PropMainExamples.
Import ListNotations.

(** ** C23 *)
(** An accepted operand of a match rule panics when it is compiled exactly when it has a
    double negation. *)
Theorem C23_accepted_match_operands_compile : forall ctx sd s ps r, s <> [] -> match_operand sd s = Good ps r ->
  (re_of_patterns ctx ps = None <-> double_negation ps).
Proof.
  intros ctx sd s ps r N H. unfold match_operand in H. destruct (unescape EscMatchPattern s) as [t r'| |] eqn:E; try discriminate. cbn [pbind] in H.
  pose proof (unescape_rest _ _ _ _ E) as ->. apply unescape_spec in E. destruct (escaped_facts _ _ _ E) as (_ & NE & _).
  destruct (parse_match_wf _ _ _ _ (NE N) H) as [W X]. apply patterns_none; assumption.
Qed.
Print Assumptions C23_accepted_match_operands_compile.
(** !(!a) has one, !(!.) and !a(!b) have not. *)
Example C23_double_negation :
  (exists ps, match_operand SPre (lit "!(!a)") = Good ps [] /\ double_negation ps) /\
  (exists ps, match_operand SPre (lit "!(!.)") = Good ps [] /\ ~ double_negation ps) /\
  (exists ps, match_operand SPre (lit "!a(!b)") = Good ps [] /\ ~ double_negation ps).
Proof.
  split; [|split]; eexists; (split; [vm_compute; reflexivity|]); rewrite <- doubled_all; vm_compute; congruence.
Qed.

(** ** C55 *)
(** Every rule of a table that was read is of the kind the theorem below is about. *)
Lemma parsed_from_table ws text rules : parse_table ws text = inl rules -> Forall from_table (map snd rules).
Proof.
  intros H. apply Forall_forall. intros r I. apply in_map_iff in I. destruct I as ([n r'] & <- & I). cbn [snd].
  destruct (proj1 (proj1 (proj2 (C39_all_rules _ _ _ H)) n r') I) as (l & ts & rest & _ & _ & W & Wr). left. exists ts, rest. split; [|exact Wr].
  clear - W. induction W; constructor; try assumption. constructor.
Qed.
Lemma expanded_from_table ws fs file out : expands ws fs file out -> Forall from_table (map a_rule out).
Proof.
  revert file out. apply (expands_mut ws fs (fun _ o => Forall from_table (map a_rule o))
    (fun path rules o => Forall from_table (map snd rules) -> Forall from_table (map a_rule o))).
  - intros file path canonical rules o _ (text & _ & P) _ IH. apply IH, (parsed_from_table _ _ _ P).
  - intros path _. constructor.
  - intros path n r rules o _ _ IH Q. cbn [map snd] in Q. inversion Q; subst. constructor; auto.
  - intros path n file d rules o _ _ _ IH Q. cbn [map snd] in Q. inversion Q; subst. constructor; [right; exists d; reflexivity|auto].
  - intros path n file mid rules o _ _ IH1 _ IH2 Q. cbn [map snd] in Q. inversion Q; subst. rewrite map_app. apply Forall_app. auto.
Qed.
Lemma tables_from_table ws fs files out : tables_expanded ws fs files = Some (inl out) -> Forall from_table (map a_rule out).
Proof.
  intros H. destruct (proj1 (proj1 (C38_several_tables ws fs files) out) H) as (outs & F & ->). clear H.
  induction F as [|f o files outs Q F IH]; [constructor|]. cbn [List.concat]. rewrite map_app. apply Forall_app. split; [|exact IH].
  apply (expanded_from_table ws fs f), (proj1 (C38_rules _ _ _ _ Q)).
Qed.

(** Compiling the rules of a table for a direction succeeds exactly when no rule has a
    problem; otherwise the outcome is that of the first problem. *)
Theorem C55_compile : forall alph compat read_dictionary order1 order2 d table x xm,
  permuting order1 -> permuting order2 -> Forall from_table table ->
  context_compile alph compat table = TOk x -> context_compile alph compat (filter (is_direction d) table) = TOk xm ->
  let result := pipeline_compile alph compat read_dictionary order1 order2 table d in
  let rules := filter (is_direction d) table in
  ((exists t, result = TOk t) <-> forall kr f, In kr (agenda rules) -> ~ problem read_dictionary d x xm kr f) /\
  (forall e, result = TErr e <-> first_problem read_dictionary d x xm rules (Error e)) /\
  (result = TPanic <-> first_problem read_dictionary d x xm rules Crash).
Proof.
  intros alph compat rd o1 o2 d table x xm O1 O2 F EC EM result rules.
  pose proof (compile_agrees alph compat rd o1 o2 O1 O2 d x xm table F EC EM) as A. fold rules in A. change (pipeline_compile alph compat rd o1 o2 table d) with result in A.
  pose proof (first_none (problem rd d x xm) (agenda rules)) as FN. fold (first_problem rd d x xm rules) in FN.
  destruct result as [t|e|]; cbn [agrees] in A.
  - split; [|split].
    + split; [intros _; apply FN, A|eauto].
    + intros e. split; [discriminate|intros H; destruct (A _ H)].
    + split; [discriminate|intros H; destruct (A _ H)].
  - split; [|split].
    + split; [intros (t & [=])|]. intros N. destruct (proj2 FN N (Error e)). apply A. reflexivity.
    + intros e'. rewrite A. split; [intros [= ->]; reflexivity|intros [= ->]; reflexivity].
    + rewrite A. split; discriminate.
  - split; [|split].
    + split; [intros (t & [=])|]. intros N. destruct (proj2 FN N Crash). apply A. reflexivity.
    + intros e'. rewrite A. split; discriminate.
    + rewrite A. split; reflexivity.
Qed.
Print Assumptions C55_compile.

(** In the default build there are always definitions. *)
Theorem C55_definitions : forall alph rules, exists x, context_compile alph true rules = TOk x.
Proof. intros alph rules. destruct (C43_undefined_base alph true rules) as [H|(p & n & d & b & q & _ & [=] & _)]. exact H. Qed.
Print Assumptions C55_definitions.

(** The outcome of building a translator (default build) from rules that were read. *)
Definition outcome (alph : char -> bool) (read_dictionary : str -> tres hyph) (d : direction) (table : list rule) (res : new_result) : Prop :=
  exists x xm, context_compile alph true table = TOk x /\ context_compile alph true (filter (is_direction d) table) = TOk xm /\
  match res with
  | Built _ => forall kr f, In kr (agenda (filter (is_direction d) table)) -> ~ problem read_dictionary d x xm kr f
  | Refused (TranslationFailed e) => first_problem read_dictionary d x xm (filter (is_direction d) table) (Error e)
  | Refused (ParseFailed _) => False
  | Panicked => first_problem read_dictionary d x xm (filter (is_direction d) table) Crash
  end.
Lemma compiled_outcome alph o1 o2 fs trim u8 l1 pu out d : permuting o1 -> permuting o2 -> Forall from_table (map a_rule out) ->
  outcome alph (dictionary fs trim u8 l1 pu) d (map a_rule out) (compiled alph true o1 o2 fs trim u8 l1 pu out d).
Proof.
  intros O1 O2 F. destruct (C55_definitions alph (map a_rule out)) as (x & EC). destruct (C55_definitions alph (filter (is_direction d) (map a_rule out))) as (xm & EM).
  exists x, xm. split; [exact EC|]. split; [exact EM|].
  destruct (C55_compile alph true (dictionary fs trim u8 l1 pu) o1 o2 d (map a_rule out) x xm O1 O2 F EC EM) as (A1 & A2 & A3).
  unfold compiled. destruct (pipeline_compile _ _ _ _ _ _ _) as [t|e|]; [apply A1; eauto|apply A2; reflexivity|apply A3; reflexivity].
Qed.
Theorem C55_new : forall ws alph order1 order2 fs trim u8 l1 pu files d, permuting order1 -> permuting order2 ->
  exists res, translator_new ws alph true order1 order2 fs trim u8 l1 pu files d = Some res /\
  match tables_expanded ws fs files with
  | Some (inl out) => outcome alph (dictionary fs trim u8 l1 pu) d (map a_rule out) res
  | Some (inr errors) => res = Refused (ParseFailed errors)
  | None => False
  end.
Proof.
  intros ws alph o1 o2 fs trim u8 l1 pu files d O1 O2. unfold translator_new. destruct (tables_expanded ws fs files) as [[out|errors]|] eqn:E.
  - eexists. split; [reflexivity|]. apply compiled_outcome; [exact O1|exact O2|]. eapply tables_from_table, E.
  - eexists. split; reflexivity.
  - exfalso. clear - E. induction files as [|f files IH]; cbn [tables_expanded] in E; [discriminate|].
    destruct (table_expanded ws fs f) as [[o|es]|] eqn:Ef; [|discriminate|destruct (C38_ends _ _ _ Ef)].
    destruct (tables_expanded ws fs files) as [[o'|es']|]; try discriminate. auto.
Qed.
Print Assumptions C55_new.
Theorem C55_from_source : forall ws alph order1 order2 fs trim u8 l1 pu text d, permuting order1 -> permuting order2 ->
  match source_rules ws text with
  | inl out => outcome alph (dictionary fs trim u8 l1 pu) d (map a_rule out) (translator_from_source ws alph true order1 order2 fs trim u8 l1 pu text d)
  | inr errors => translator_from_source ws alph true order1 order2 fs trim u8 l1 pu text d = Refused (ParseFailed errors)
  end.
Proof.
  intros ws alph o1 o2 fs trim u8 l1 pu text d O1 O2. unfold translator_from_source. destruct (source_rules ws text) as [out|errors] eqn:E; [|reflexivity].
  apply compiled_outcome; [exact O1|exact O2|]. unfold source_rules, table_of_text in E. destruct (parse_table ws text) as [rules|es] eqn:P; [|discriminate].
  destruct (existsb is_include _); [discriminate|]. injection E as <-. rewrite map_map. cbn [a_rule].
  exact (parsed_from_table _ _ _ P).
Qed.
Print Assumptions C55_from_source.

(** So a panic needs a comparison of variables with < or > (or <=, >=) or a double
    negation in a rule that is meant for the direction. *)
Theorem C55_no_panic : forall ws alph order1 order2 fs trim u8 l1 pu files d out, permuting order1 -> permuting order2 ->
  tables_expanded ws fs files = Some (inl out) ->
  (forall r tests actions, In r (map a_rule out) -> is_direction d r = true -> test_and_action r = Some (tests, actions) -> ~ compares tests) ->
  (forall pre text post dots k, In (RMatch pre text post dots k) (map a_rule out) -> is_direction d (RMatch pre text post dots k) = true ->
     ~ double_negation (pre ++ post)) ->
  translator_new ws alph true order1 order2 fs trim u8 l1 pu files d <> Some Panicked.
Proof.
  intros ws alph o1 o2 fs trim u8 l1 pu files d out O1 O2 E N1 N2 H.
  destruct (C55_new ws alph o1 o2 fs trim u8 l1 pu files d O1 O2) as (res & E1 & R). rewrite H in E1. injection E1 as <-. rewrite E in R.
  destruct R as (x & xm & _ & _ & before & [k r] & after & A & [_ Fy] & _). cbn [fst snd] in Fy.
  assert (I : In r (map a_rule out) /\ is_direction d r = true).
  { apply filter_In. assert (J : In (k, r) (agenda (filter (is_direction d) (map a_rule out)))) by (rewrite A; apply in_elt).
    unfold agenda in J. apply in_prod_iff in J. apply J. }
  destruct I as [I D]. inversion Fy as [ |pre text post dots kk DD N| |r' ts acts TA K C| |path Dp]; subst.
  - exact (N2 _ _ _ _ _ I D N).
  - exact (N1 _ _ _ I D TA C).
  - clear - Dp. unfold dictionary in Dp. destruct (read_to_string fs path) as [text|]; [|discriminate]. destruct (hyph_parse _ _ _ _ _); discriminate.
Qed.
Print Assumptions C55_no_panic.

(** ** C36: a table with a rule that has = for its dots and a character without definition
    is refused, with a message that names such a character unless another problem comes
    first. *)
Theorem C36_undefined_character : forall alph read_dictionary order1 order2 d table r text c x xm,
  permuting order1 -> permuting order2 -> Forall from_table table ->
  In r table -> is_direction d r = true -> same_as_characters r = Some text -> In c text ->
  context_compile alph true table = TOk x ->
  context_compile alph true (filter (is_direction d) table) = TOk xm -> defs_get (x_defs xm) c = None ->
  let result := pipeline_compile alph true read_dictionary order1 order2 table d in
  (forall t, result <> TOk t) /\
  ((forall kr f, In kr (agenda (filter (is_direction d) table)) -> problem read_dictionary d x xm kr f ->
      exists c', f = Error (ImplicitCharacterNotDefined c')) ->
   exists c', result = TErr (ImplicitCharacterNotDefined c')).
Proof.
  intros alph rd o1 o2 d table r text c x xm O1 O2 F I D SA Ic EC EM Nc result.
  destruct (C55_compile alph true rd o1 o2 d table x xm O1 O2 F EC EM) as (A1 & A2 & A3). fold result in A1, A2, A3. clearbody result.
  assert (X : exists before c0 after, text = before ++ c0 :: after /\ defs_get (x_defs xm) c0 = None /\ forall b, In b before -> defs_get (x_defs xm) b <> None).
  { clear - Ic Nc. induction text as [|y text IH]; [destruct Ic|]. destruct (defs_get (x_defs xm) y) as [s|] eqn:Ey.
    - destruct Ic as [->|Ic]; [congruence|]. destruct (IH Ic) as (b & c0 & a & -> & N & B). exists (y :: b), c0, a. split; [reflexivity|]. split; [exact N|].
      intros z [<-|J]; [congruence|apply B, J].
    - exists [], y, text. split; [reflexivity|]. split; [exact Ey|intros z []]. }
  destruct X as (before & c0 & after & -> & N0 & B0).
  assert (FY : problem rd d x xm (MainPass, r) (Error (ImplicitCharacterNotDefined c0))).
  { split; cbn [fst snd looked_at]; [destruct r; try discriminate SA; intros []; reflexivity|]. eapply f_undefined; [exact SA|reflexivity|exact N0|exact B0]. }
  assert (J : In (MainPass, r) (agenda (filter (is_direction d) table))).
  { unfold agenda. apply in_prod; [right; left; reflexivity|]. apply filter_In. auto. }
  assert (NO : forall t, result <> TOk t) by (intros t Q; apply (proj1 A1 (ex_intro _ t Q) _ _ J FY)).
  split; [exact NO|]. intros Q.
  assert (FP : forall f, first_problem rd d x xm (filter (is_direction d) table) f -> exists c', f = Error (ImplicitCharacterNotDefined c')).
  { intros f (b & kr & a & E & P & _). apply (Q kr f); [rewrite E; apply in_elt|exact P]. }
  destruct result as [t|e|].
  - destruct (NO t eq_refl).
  - destruct (FP _ (proj1 (A2 e) eq_refl)) as (c' & [= ->]). eauto.
  - destruct (FP _ (proj1 A3 eq_refl)) as (c' & [=]).
Qed.
Print Assumptions C36_undefined_character.
(** The character named is the first one without definition in the text of a rule with =. *)
Theorem C36_named_character : forall alph read_dictionary order1 order2 d table c,
  permuting order1 -> permuting order2 -> Forall from_table table ->
  (forall path e, read_dictionary path = TErr e -> e = HyphenationTableIoError \/ e = HyphenationTableParseError) ->
  pipeline_compile alph true read_dictionary order1 order2 table d = TErr (ImplicitCharacterNotDefined c) ->
  exists r text before after xm, In r table /\ is_direction d r = true /\ same_as_characters r = Some text /\ text = before ++ c :: after /\
    context_compile alph true (filter (is_direction d) table) = TOk xm /\ defs_get (x_defs xm) c = None /\
    (forall b, In b before -> defs_get (x_defs xm) b <> None).
Proof.
  intros alph rd o1 o2 d table c O1 O2 F RD H.
  destruct (C55_definitions alph table) as (x & EC). destruct (C55_definitions alph (filter (is_direction d) table)) as (xm & EM).
  destruct (C55_compile alph true rd o1 o2 d table x xm O1 O2 F EC EM) as (_ & A2 & _). apply A2 in H.
  destruct H as (b & [k r] & a & E & [L Fy] & _). cbn [fst snd] in L, Fy.
  assert (I : In r table /\ is_direction d r = true).
  { apply filter_In. assert (J : In (k, r) (agenda (filter (is_direction d) table))) by (rewrite E; apply in_elt). apply in_prod_iff in J. apply J. }
  inversion Fy as [r' text before c' after SA ET N B| |r' ts acts bb name aa TA EA N B| |path e De| ]; subst.
  - assert (k = MainPass) as ->.
    { destruct k; try reflexivity; cbn [looked_at] in L; destruct L as [L _]; destruct r; discriminate. }
    exists r, (before ++ c :: after), before, after, xm. tauto.
  - destruct (RD _ _ De) as [Q|Q]; discriminate.
Qed.
Print Assumptions C36_named_character.

(** ** Examples *)
Definition ex_new (text : list str) (d : direction) : option (option (terr + unit)) :=
  match translator_from_source ex_ws ex_alpha true (fun l => l) (fun l => l) (ex_fs []) (fun s => s) (fun _ => false) (fun _ => false) (fun _ => None)
          (ex_lines text) d with
  | Built _ => Some None
  | Refused (TranslationFailed e) => Some (Some (inl e))
  | Refused (ParseFailed _) => None
  | Panicked => Some (Some (inr tt))
  end.
(** a table without problems; one in which the main pass has two problems and pass2 one;
    the nofor rule is no problem forward *)
Example C55_examples :
  ex_new [lit "letter a 1"; lit "letter b 12"; lit "always ab ="; lit "nofor word c ="] Forward = Some None /\
  ex_new [lit "letter a 1"; lit "letter b 12"; lit "always ab ="; lit "nofor word c ="] Backward = Some (Some (inl (ImplicitCharacterNotDefined 99%N))) /\
  ex_new [lit "pass2 @1 %s"; lit "letter a 1"; lit "word abc ="; lit "comp6 c ="] Forward = Some (Some (inl (ImplicitCharacterNotDefined 98%N))) /\
  ex_new [lit "pass2 @1 %s"; lit "letter a 1"] Forward = Some (Some (inl (SwapClassNotDefined (lit "s")))) /\
  ex_new [lit "pass2 @1 %s"; lit "letter a 1"] Backward = Some None.
Proof. vm_compute. repeat split; reflexivity. Qed.
(** Building a translator panics: a comparison, a double negation. *)
Theorem C55_never_panics_refuted :
  ex_new [lit "correct ""a""#1<2 ""b"""] Forward = Some (Some (inr tt)) /\
  ex_new [lit "match !(!a) b - 12"] Forward = Some (Some (inr tt)).
Proof. vm_compute. split; reflexivity. Qed.
Print Assumptions C55_never_panics_refuted.
