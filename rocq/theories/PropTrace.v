(** C61: the trace command. *)
From Coq Require Import Permutation Strings.String ZArith.
From Coq Require Import List.
From Verif Require Import Base BaseProofs RuleModel TranslationModel TableModel PatternModel HyphenationModel TrieModel LoopModel
  MultipassProofs PassSpec PassProofs PropPasses CompileModel CompileSpec MainTable ConstraintModel IndicatorModel EmphSpec MainSpec TraceSpec MainPass TraceProofs
  PropMain PropPieces PropMainExamples PipelineModel PipelineSpec PipelineProofs PropPipeline
  BrailleModel BrailleProofs OperandModel UnescapeSpec OperandSpec OperandText ParserModel LineSpec LineProofs LineFacts PropTableText
  DisplayModel DisplaySpec DisplayProofs.
Local Open Scope list_scope.

(** ** Rules as text *)
Lemma test_operand l ts mid : reads (Tests l) ts mid -> exists s, show_tests l = Ok s /\ tests_shown l s.
Proof. intros R. inversion R; subst. destruct (proj2 tests_are_shown _ _ _ ltac:(eassumption)) as (u & E & _ & A & _). eauto. Qed.
Lemma action_operand l ts mid : reads (Actions l) ts mid -> item_shown (Actions l) (show_actions l).
Proof. intros R. inversion R; subst. eapply actions_are_shown. eassumption. Qed.
Lemma pre_operand l ts mid : reads (LineSpec.Pre l) ts mid -> exists s, show_patterns l = Ok s /\ item_shown (LineSpec.Pre l) s.
Proof. intros R. inversion R; subst. eapply operand_shows. eassumption. Qed.
Lemma post_operand l ts mid : reads (Post l) ts mid -> exists s, show_patterns l = Ok s /\ item_shown (Post l) s.
Proof. intros R. inversion R; subst. eapply operand_shows. eassumption. Qed.
Lemma shown_by r name items s : spelling r = Some (name, items) -> existsb (str_eqb name) printable = true -> show_rule r = Ok s ->
  (exists words, Forall2 item_shown items words /\ s = joins (ch " ") (name :: words)) ->
  (printable_rule r -> exists s, show_rule r = Ok s /\ rule_shown r s) /\ (~ printable_rule r -> show_rule r = Panic).
Proof.
  intros Es P E (words & F & Ew).
  assert (I : In name printable). { apply existsb_exists in P. destruct P as (n' & I & Eq). apply str_eqb_eq in Eq. subst n'. exact I. }
  split.
  - intros _. exists s. split; [exact E|]. exists name, items, words. auto.
  - intros N. destruct N. exists name, items. auto.
Qed.
Lemma not_shown r : show_rule r = Panic -> match spelling r with Some (name, _) => existsb (str_eqb name) printable = false | None => True end ->
  (printable_rule r -> exists s, show_rule r = Ok s /\ rule_shown r s) /\ (~ printable_rule r -> show_rule r = Panic).
Proof.
  intros E N. split; [|intros _; exact E]. intros (name & items & Es & I). rewrite Es in N.
  assert (X : existsb (str_eqb name) printable = true). { apply existsb_exists. exists name. split; [exact I|]. apply str_eqb_eq. reflexivity. }
  congruence.
Qed.

Definition word_of (i : item) : str :=
  match i with Char c => [c] | Text t | Name t | Cells t => t | Dots b => sb b | _ => [] end.
Definition easy (i : item) : Prop := match i with Char _ | Text _ | Name _ | Cells _ | Dots _ => True | _ => False end.
Lemma easy_shown items : Forall easy items -> Forall2 item_shown items (map word_of items).
Proof. induction 1 as [|i l E _ IH]; constructor; [|exact IH]. destruct i as [| | | | | | | | | |[]| | | | | |]; try destruct E; reflexivity. Qed.

(** A rule that is read from a line of a table is shown as its opcode and its operands
    ([rule_shown]) if its opcode is one of [printable]; showing any other rule panics. *)
Theorem C61_rule_text : forall ts r rest, written ts r rest ->
  (printable_rule r -> exists s, show_rule r = Ok s /\ rule_shown r s) /\
  (~ printable_rule r -> show_rule r = Panic).
Proof.
  intros ts r rest (k & w & m & name & items & operands & _ & _ & _ & Es & R & _).
  assert (MP : forall test action, items = [Tests test; Actions action] ->
    (forall t, show_tests test = Ok t -> show_rule r = words2 name t (show_actions action)) -> existsb (str_eqb name) printable = true ->
    (printable_rule r -> exists s, show_rule r = Ok s /\ rule_shown r s) /\ (~ printable_rule r -> show_rule r = Panic)).
  { intros test action -> H P. inversion R as [|? ? ? ? ? R1 R2]; subst. inversion R2 as [|? ? ? ? ? R3 _]; subst.
    destruct (test_operand _ _ _ R1) as (t & Et & T). pose proof (action_operand _ _ _ R3) as A.
    eapply shown_by; [exact Es|exact P|rewrite (H t Et); reflexivity|]. exists [t; show_actions action]. split; [constructor; [exact T|constructor; [exact A|constructor]]|].
    unfold joins. cbn [flat_map]. rewrite app_nil_r. reflexivity. }
  destruct r; cbn [spelling] in Es; try discriminate Es; injection Es as <- <-;
    try (apply not_shown; [reflexivity|reflexivity]);
    try (apply (MP test action); [reflexivity|intros t Et; cbn [show_rule]; unfold multipass_words; rewrite Et; reflexivity|reflexivity]);
    try (eapply shown_by; [reflexivity|reflexivity|reflexivity|];
         eexists; (split; [apply easy_shown; repeat (constructor; [exact Logic.I|]); constructor|]);
         unfold joins; cbn [flat_map map word_of]; rewrite ?app_nil_r; reflexivity).
  inversion R as [|? ? ? ? ? R1 R2]; subst. inversion R2 as [|? ? ? ? ? _ R3]; subst. inversion R3 as [|? ? ? ? ? R4 _]; subst.
  destruct (pre_operand _ _ _ R1) as (s & Es & S0). destruct (post_operand _ _ _ R4) as (t & Et & T0).
  eapply shown_by; [reflexivity|reflexivity|cbn [show_rule]; rewrite Es, Et; reflexivity|].
  exists [s; chars; t; sb dots]. split.
  - constructor; [exact S0|]. constructor; [reflexivity|]. constructor; [exact T0|]. constructor; [destruct dots; reflexivity|constructor].
  - unfold joins. cbn [flat_map]. rewrite app_nil_r. reflexivity.
Qed.
Print Assumptions C61_rule_text.

(** A test operand without dots, whose texts need no escapes, is shown in a way it can be
    written: read again, it is the same operand. *)
Theorem C61_tests_read_back : forall s l, tests_text s l [] -> Forall plain_test l ->
  exists u, show_tests l = Ok u /\ tests_text u l [].
Proof.
  intros s l T P. destruct (proj2 tests_are_shown _ _ _ T) as (u & E & _ & _ & H). exists u. split; [exact E|]. apply H; [exact P|apply safe_nil].
Qed.
Print Assumptions C61_tests_read_back.
(** The same for the patterns of a match rule without classes of characters. *)
Theorem C61_patterns_read_back : forall sd s l, operand_text sd s l -> Forall plain_pattern l ->
  exists u, show_patterns l = Ok u /\ operand_text sd u l.
Proof. exact operand_is_shown. Qed.
Print Assumptions C61_patterns_read_back.

(** ** The rows *)
Section Command.
Variable is_alphabetic : char -> bool.
Variable lower upper : char -> list char.
Variable sort : list event -> res (list event).
Variable compat : bool.
Variable read_dictionary : str -> tres hyph.
Hypothesis DR : dictionaries_read read_dictionary.
Hypothesis SR : sort_rearranges sort.
Notation compile := (pipeline_compile is_alphabetic compat read_dictionary).
Notation trace := (pipeline_trace lower upper sort).
Notation translate := (pipeline_translate lower upper sort).
Notation command := (trace_command lower upper sort).

Lemma main_origin d x rules m input spans out t r :
  main_built is_alphabetic compat read_dictionary d x rules m -> main_trace lower upper sort m input spans = Ok out ->
  In t out -> r_origin t = Some r -> In r rules /\ forall path, r <> RIncludeHyphenation path.
Proof.
  intros B E I Or. apply in_split in I. destruct I as (a & b & Eo). destruct (is_sign t) eqn:S0.
  - destruct (C26_signs_come_from_the_table _ _ _ _ _ _ lower upper sort m B DR SR input spans out a t b E Eo S0) as (_ & r' & Hr & O & SD & _).
    assert (r' = r) as -> by congruence. split; [exact Hr|]. intros path ->. discriminate SD.
  - destruct (pass_traced _ _ _ _ _ _ lower upper sort m B DR input spans out SR E) as (sp & em & caps & ind & lim & ts & T).
    destruct (text_piece_facts _ _ _ _ _ _ lower upper sort m B _ _ _ _ _ _ _ _ _ _ _ _ T Eo S0) as (ts1 & h & u & _ & _ & _ & _ & O & _ & F).
    rewrite Or in O. assert (Hr : In r rules).
    { destruct h.
      - destruct F as (_ & r' & Hr & O' & _). congruence.
      - destruct F as (r' & Hr & O' & _). congruence.
      - destruct F as (_ & c & rest & _ & _ & [N|(r' & Hr & O' & _)]); congruence. }
    split; [exact Hr|]. intros path ->.
    destruct (not_sign_says _ _ _ _ _ _ lower upper sort m B DR SR input spans out a t b _ E Eo S0 Or eq_refl) as (_ & text & dots & _ & W & _).
    exact W.
Qed.
Lemma pass_origin rules d st x ps text out t r : multipass_compile rules d st x = TOk ps -> multipass_trace lower ps st text = Ok out ->
  In t out -> r_origin t = Some r -> In r rules /\ forall path, r <> RIncludeHyphenation path.
Proof.
  intros C T I Or. apply in_split in I. destruct I as (a & b & Eo).
  destruct (C06_passes_choose lower rules d st x ps text out C T) as [H _]. specialize (H a t b Eo).
  assert (G : forall b u, finds lower text ps b u -> r_origin u = r_origin t -> In r rules /\ forall path, r <> RIncludeHyphenation path).
  { intros b0 u F E. destruct (found_effects _ _ _ _ _ _ _ C b0 u F) as (r' & test & action & Hr & K & O & _).
    assert (r' = r) as -> by congruence. split; [exact Hr|]. intros path ->. destruct K as (k & K). destruct K as [K|[K|[K|K]]]; discriminate K. }
  destruct H as [(_ & [((b0 & c & y & v & _ & _ & F & _ & _ & E) & _)|(_ & l1 & p & l2 & Ep & D & _)])|(_ & c & r' & _ & E)].
  - apply (G b0 v F). rewrite E. reflexivity.
  - destruct D as ((e & q & He & Hq & F) & _). apply (G a t); [|reflexivity]. exists e, q. split; [exact He|]. split; [|exact F].
    destruct Hq as [<-|[]]. rewrite Ep. apply in_or_app. right. left. reflexivity.
  - subst t. discriminate Or.
Qed.
Lemma origin_in_table d table t : Forall (pass_built is_alphabetic compat read_dictionary d table) t ->
  forall input all l p r, trace t input = Ok all -> In l all -> In p l -> r_origin p = Some r ->
  In r table /\ is_direction d r = true /\ forall path, r <> RIncludeHyphenation path.
Proof.
  intros F input all l p r. unfold pipeline_trace. revert input all. induction F as [|s t Hs _ IH]; intros input all E I J Or; cbn [pipeline_trace_with] in E.
  - injection E as <-. destruct I.
  - destruct (transformation_trace lower upper sort s input options_default) as [r0| |] eqn:E0; try discriminate. cbn [bind] in E.
    destruct (pipeline_trace_with lower upper sort t (outputs r0) options_default) as [rest| |] eqn:E1; try discriminate. cbn [bind] in E. injection E as <-.
    destruct I as [<-|I]; [|eapply IH; eassumption].
    assert (X : In r (filter (is_direction d) table) /\ forall path, r <> RIncludeHyphenation path).
    { destruct s as [st ps|m|st ps]; cbn [transformation_trace pass_built] in *.
      - destruct Hs as (x & _ & _ & C). destruct (pass_origin _ _ _ _ _ _ _ _ _ C E0 J Or) as [Hr N]. apply filter_In in Hr. tauto.
      - destruct Hs as (x & _ & B). exact (main_origin _ _ _ _ _ _ _ _ _ B E0 J Or).
      - destruct Hs as (x & _ & _ & C). destruct (pass_origin _ _ _ _ _ _ _ _ _ C E0 J Or) as [Hr N]. apply filter_In in Hr. tauto. }
    destruct X as [X N]. apply filter_In in X. tauto.
Qed.

Lemma rows_ok l : forall n rows, rows_from n l = Ok rows ->
  length rows = length l /\
  forall i p, nth_error l i = Some p -> exists w, nth_error rows i = Some w /\
    decimal (row_number w) (N.of_nat (S (n + i))) /\ row_from w = r_input p /\ row_to w = r_output p /\
    row_stage w = stage_shown (r_stage p) /\ display_origin (r_origin p) = Ok (row_rule w).
Proof.
  induction l as [|t l IH]; intros n rows E; cbn [rows_from] in E.
  - injection E as <-. split; [reflexivity|]. intros [|i] p H; discriminate.
  - destruct (display_origin (r_origin t)) as [s| |] eqn:Es; try discriminate. cbn [bind] in E.
    destruct (rows_from (S n) l) as [rs| |] eqn:Er; try discriminate. cbn [bind] in E. injection E as <-.
    destruct (IH _ _ Er) as [L H]. split; [cbn [length]; congruence|]. intros [|i] p Hp.
    + injection Hp as <-. eexists. split; [reflexivity|]. cbn [row_number row_from row_to row_stage row_rule].
      rewrite Nat.add_0_r. split; [apply show_decimal|]. split; [reflexivity|]. split; [reflexivity|]. split; [|exact Es]. destruct (r_stage t); reflexivity.
    + rewrite <- Nat.add_succ_comm. apply H. exact Hp.
Qed.
Lemma rows_total l n : Forall (fun p => exists s, display_origin (r_origin p) = Ok s) l -> exists rows, rows_from n l = Ok rows.
Proof.
  intros F. revert n. induction F as [|p l (s & E) _ IH]; intros n; [exists []; reflexivity|]. cbn [rows_from]. rewrite E. cbn [bind].
  destruct (IH (S n)) as (rows & ->). eexists. reflexivity.
Qed.
Lemma rows_panic l p n : In p l -> (forall q, In q l -> display_origin (r_origin q) <> OutOfFuel) -> display_origin (r_origin p) = Panic ->
  rows_from n l = Panic.
Proof.
  revert n. induction l as [|t l IH]; intros n I N E; [destruct I|]. cbn [rows_from].
  destruct (display_origin (r_origin t)) as [s| |] eqn:Et; cbn [bind]; [|reflexivity|destruct (N t (or_introl eq_refl) Et)].
  destruct I as [->|I]; [congruence|]. rewrite (IH (S n) I); [reflexivity| |exact E]. intros q J. apply N. right. exact J.
Qed.

(** the rules of a table: read from lines, or the dictionaries lines name *)
Definition read_from_lines (table : list rule) : Prop := forall r, In r table ->
  (exists path, r = RIncludeHyphenation path) \/ exists ts rest, written ts r rest.

(** What the command prints: the translation, then one row for each piece of every pass, pass
    by pass and from left to right, leaving out the characters that the passes other than the
    main pass have copied; numbered from one, with the input, the output and the pass of the
    piece, and with the rule it comes from, if there is one. *)
Theorem C61_rows : forall order1 order2 table d t input out rows,
  (forall l, Permutation (order1 l) l) -> (forall l, Permutation (order2 l) l) ->
  compile order1 order2 table d = TOk t -> read_from_lines table -> command t input = Ok (out, rows) ->
  translate t input = Ok out /\
  exists passes, trace t input = Ok passes /\
    let pieces := filter (fun p => match r_stage p, r_origin p with Main, _ | _, Some _ => true | _, None => false end) (concat passes) in
    length rows = length pieces /\
    forall i p, nth_error pieces i = Some p -> exists w, nth_error rows i = Some w /\
      decimal (row_number w) (N.of_nat (S i)) /\ row_from w = r_input p /\ row_to w = r_output p /\
      row_stage w = stage_shown (r_stage p) /\ origin_shown (r_origin p) (row_rule w).
Proof.
  intros order1 order2 table d t input out rows O1 O2 C RL E.
  destruct (compile_built is_alphabetic compat read_dictionary order1 order2 table d t O1 O2 C) as [F _].
  unfold trace_command in E. destruct (translate t input) as [out'| |] eqn:E1; try discriminate. cbn [bind] in E.
  destruct (trace t input) as [all| |] eqn:E2; try discriminate. cbn [bind] in E.
  destruct (print_trace all) as [rows'| |] eqn:E3; try discriminate. cbn [bind] in E. injection E as -> ->.
  split; [reflexivity|]. exists all. split; [reflexivity|]. intros pieces.
  assert (P : filter is_shown (concat all) = pieces).
  { apply filter_ext. intros p. unfold is_shown. destruct (r_stage p), (r_origin p); reflexivity. }
  unfold print_trace in E3. rewrite P in E3. destruct (rows_ok _ _ _ E3) as [L H]. split; [exact L|]. intros i p Hp.
  destruct (H i p Hp) as (w & Hw & D & A1 & A2 & A3 & A4). exists w. repeat (split; [assumption|]).
  destruct (r_origin p) as [r|] eqn:Or; cbn [display_origin origin_shown] in *; [|congruence].
  apply nth_error_In in Hp. unfold pieces in Hp. apply filter_In in Hp. destruct Hp as [Hp _]. apply in_concat in Hp. destruct Hp as (l & I & J).
  destruct (origin_in_table d table t F input all l p r E2 I J Or) as (Hr & _ & N).
  destruct (RL r Hr) as [(path & ->)|(ts & rest & W)]; [destruct (N path eq_refl)|].
  destruct (C61_rule_text _ _ _ W) as [X Y].
  assert (PR : printable_rule r).
  { destruct (spelling r) as [[name items]|] eqn:Es.
    - destruct (in_dec (list_eq_dec N.eq_dec) name printable) as [I0|NI]; [exists name, items; auto|].
      exfalso. rewrite Y in A4; [discriminate A4|]. intros (n' & i' & Es' & I'). rewrite Es in Es'. injection Es' as <- <-. auto.
    - exfalso. rewrite Y in A4; [discriminate A4|]. intros (n' & i' & Es' & _). congruence. }
  destruct (X PR) as (s & Es & RS). assert (s = row_rule w) as <- by congruence. exact RS.
Qed.

(** If the translation itself goes well, the command ends with rows exactly if every rule a
    piece comes from has a text form, and with a panic otherwise. *)
Theorem C61_ends : forall order1 order2 table d t input out passes,
  (forall l, Permutation (order1 l) l) -> (forall l, Permutation (order2 l) l) ->
  compile order1 order2 table d = TOk t -> read_from_lines table ->
  translate t input = Ok out -> trace t input = Ok passes ->
  ((exists rows, command t input = Ok (out, rows)) <->
     forall l p r, In l passes -> In p l -> r_origin p = Some r -> printable_rule r) /\
  ((exists l p r, In l passes /\ In p l /\ r_origin p = Some r /\ ~ printable_rule r) -> command t input = Panic).
Proof.
  intros order1 order2 table d t input out passes O1 O2 C RL E1 E2.
  destruct (compile_built is_alphabetic compat read_dictionary order1 order2 table d t O1 O2 C) as [F _].
  assert (W : forall l p r, In l passes -> In p l -> r_origin p = Some r -> exists ts rest, written ts r rest).
  { intros l p r I J Or. destruct (origin_in_table d table t F input passes l p r E2 I J Or) as (Hr & _ & N).
    destruct (RL r Hr) as [(path & ->)|W]; [destruct (N path eq_refl)|exact W]. }
  assert (EC : command t input = bind (print_trace passes) (fun rows => Ok (out, rows))).
  { unfold trace_command. rewrite E1. cbn [bind]. rewrite E2. reflexivity. }
  assert (PN : (exists l p r, In l passes /\ In p l /\ r_origin p = Some r /\ ~ printable_rule r) -> print_trace passes = Panic).
  { intros (l & p & r & I & J & Or & N). apply (rows_panic _ p).
    - apply filter_In. split; [apply in_concat; exists l; auto|]. unfold is_shown. rewrite Or. destruct (r_stage p); reflexivity.
    - intros q K. apply filter_In in K. destruct K as [K _]. apply in_concat in K. destruct K as (l' & I' & J').
      destruct (r_origin q) as [r'|] eqn:Oq; [|discriminate]. cbn [display_origin]. destruct (W l' q r' I' J' Oq) as (ts & rest & Wr).
      destruct (C61_rule_text _ _ _ Wr) as [X Y]. intros Z.
      assert (NP : ~ printable_rule r') by (intros Pr; destruct (X Pr) as (s & Es & _); congruence). rewrite (Y NP) in Z. discriminate Z.
    - rewrite Or. cbn [display_origin]. destruct (W l p r I J Or) as (ts & rest & Wr). apply (proj2 (C61_rule_text _ _ _ Wr) N). }
  split; [split|].
  - intros (rows & E) l p r I J Or.
    destruct (spelling r) as [[name items]|] eqn:Es.
    + destruct (in_dec (list_eq_dec N.eq_dec) name printable) as [I0|NI]; [exists name, items; auto|].
      exfalso. rewrite EC, PN in E; [discriminate E|]. exists l, p, r. repeat (split; [assumption|]). intros (n' & i' & Es' & I'). rewrite Es in Es'. injection Es' as <- <-. auto.
    + exfalso. rewrite EC, PN in E; [discriminate E|]. exists l, p, r. repeat (split; [assumption|]). intros (n' & i' & Es' & _). congruence.
  - intros H. assert (X : exists rows, print_trace passes = Ok rows).
    { apply rows_total. apply Forall_forall. intros p K. apply filter_In in K. destruct K as [K _]. apply in_concat in K. destruct K as (l & I & J).
      destruct (r_origin p) as [r|] eqn:Or; [|exists []; reflexivity]. destruct (W l p r I J Or) as (ts & rest & Wr).
      destruct (proj1 (C61_rule_text _ _ _ Wr) (H l p r I J Or)) as (s & Es & _). exists s. exact Es. }
    destruct X as (rows & X). exists rows. rewrite EC, X. reflexivity.
  - intros H. rewrite EC, (PN H). reflexivity.
Qed.

(** So a table that, for the direction, has only rules with a text form can always be traced. *)
Theorem C61_printable_tables : forall order1 order2 table d t input out passes,
  (forall l, Permutation (order1 l) l) -> (forall l, Permutation (order2 l) l) ->
  compile order1 order2 table d = TOk t -> read_from_lines table ->
  (forall r, In r table -> is_direction d r = true -> (exists path, r = RIncludeHyphenation path) \/ printable_rule r) ->
  translate t input = Ok out -> trace t input = Ok passes -> exists rows, command t input = Ok (out, rows).
Proof.
  intros order1 order2 table d t input out passes O1 O2 C RL P E1 E2.
  apply (proj1 (C61_ends order1 order2 table d t input out passes O1 O2 C RL E1 E2)). intros l p r I J Or.
  destruct (compile_built is_alphabetic compat read_dictionary order1 order2 table d t O1 O2 C) as [F _].
  destruct (origin_in_table d table t F input passes l p r E2 I J Or) as (Hr & D & N).
  destruct (P r Hr D) as [(path & ->)|Q]; [destruct (N path eq_refl)|exact Q].
Qed.
End Command.
Print Assumptions C61_rows.
Print Assumptions C61_ends.
Print Assumptions C61_printable_tables.

(** ** Examples *)
Definition ex_command (ls : list str) (d : direction) (input : str) : option (res (str * list (str * str * str * str * str))) :=
  match parse_table (fun c => mem c [9; 10; 32]%N) (flat_map (fun l => l ++ [10%N]) ls) with
  | inl rules =>
      match ex_pipeline d (map snd rules) with
      | TOk t => Some (do x <- trace_command ex_lower ex_upper ex_sort t input;
                       let '(out, rows) := x in
                       Ok (out, map (fun w => (row_number w, row_from w, row_to w, row_rule w, row_stage w)) rows))
      | _ => None
      end
  | inr _ => None
  end.
Definition ex_lines1 : list str :=
  [lit "letter a 1"; lit "letter b 12"; lit "noback word ab 3"; lit "correct [""q""]""q"" ""a"""; lit "pass2 @1 @4"].
(** two characters become one, a word and a letter; the copied characters of the first and
    the third pass are not shown, but the undefined character in the main pass is, without a rule *)
Example C61_example :
  ex_command (lit "space \s 0" :: lit "undefined 6" :: lit "always q 25" :: ex_lines1) Forward (lit "ab qq!a") =
  Some (Ok ([10244; 10240; 10248; 10258; 10272; 10248]%N,
    [(lit "1", lit "q", lit "a", lit "correct [""q""]""q"" a", lit "Pre");
     (lit "2", lit "ab", [10244]%N, lit "word ab " ++ [10244]%N, lit "Main");
     (lit "3", lit " ", [10240]%N, lit "space   " ++ [10240]%N, lit "Main");
     (lit "4", lit "a", [10241]%N, lit "letter a " ++ [10241]%N, lit "Main");
     (lit "5", lit "q", [10258]%N, lit "always q " ++ [10258]%N, lit "Main");
     (lit "6", lit "!", [10272]%N, [], lit "Main");
     (lit "7", lit "a", [10241]%N, lit "letter a " ++ [10241]%N, lit "Main");
     (lit "8", [10241]%N, [10248]%N, lit "pass2 @" ++ [10241]%N ++ lit " " ++ [10248]%N, lit "Pass2");
     (lit "9", [10241]%N, [10248]%N, lit "pass2 @" ++ [10241]%N ++ lit " " ++ [10248]%N, lit "Pass2")])).
Proof. vm_compute. reflexivity. Qed.

(** the hypotheses of [C61_rows] are met by what the parser gives *)
Example C61_parsed_tables : forall ws text rules, parse_table ws text = inl rules -> read_from_lines (map snd rules).
Proof.
  intros ws text rules E r I. apply in_map_iff in I. destruct I as ([n r'] & E' & I). cbn in E'. subst r'.
  right. destruct (PropTableText.C39_all_rules ws text rules E) as (_ & H & _). apply H in I. destruct I as (l & ts & rest & _ & _ & _ & W). eauto.
Qed.

(** Not every table can be traced: the translation of "by" is found, but its rule has no text
    form; the same with the signs for emphasised text and for computer braille. *)
Theorem C61_every_table_can_be_traced_refuted :
  exists rules t out passes, parse_table (fun c => mem c [9; 10; 32]%N) (lit "lowword by 356") = inl rules /\
    ex_pipeline Forward (map snd rules) = TOk t /\
    pipeline_translate ex_lower ex_upper ex_sort t (lit "by") = Ok out /\
    pipeline_trace ex_lower ex_upper ex_sort t (lit "by") = Ok passes /\
    trace_command ex_lower ex_upper ex_sort t (lit "by") = Panic.
Proof.
  do 4 eexists. split; [vm_compute; reflexivity|]. split; [vm_compute; reflexivity|].
  split; [vm_compute; reflexivity|]. split; [vm_compute; reflexivity|]. vm_compute; reflexivity.
Qed.
Print Assumptions C61_every_table_can_be_traced_refuted.
(** What is shown for a rule need not be a line of a table: dots are shown as cells, and the
    texts and dots of actions without the signs that announce them. *)
Theorem C61_shown_rules_are_lines_refuted :
  (exists r rest, p_rule (tokens (lit "letter a 1")) = Parsed r rest /\
    exists s e, show_rule r = Ok s /\ p_rule (tokens s) = Failed e) /\
  (exists r rest, p_rule (tokens (lit "correct ""a"" ""b""")) = Parsed r rest /\
    exists e, show_rule r = Ok (lit "correct ""a"" b") /\ p_rule (tokens (lit "correct ""a"" b")) = Failed e).
Proof.
  split; do 2 eexists; (split; [vm_compute; reflexivity|]).
  - do 2 eexists. split; [vm_compute; reflexivity|]. vm_compute; reflexivity.
  - eexists. split; [vm_compute; reflexivity|]. vm_compute; reflexivity.
Qed.
Print Assumptions C61_shown_rules_are_lines_refuted.
(** Different rules can be shown alike: the marks and conditions in front of the opcode are
    left out, and the class of letters in a match rule, which is written %a, is shown as the
    text l. *)
Theorem C61_different_rules_look_different_refuted :
  (exists r1 r2 rest1 rest2 s, p_rule (tokens (lit "noback after digit word by =")) = Parsed r1 rest1 /\
     p_rule (tokens (lit "word by =")) = Parsed r2 rest2 /\ r1 <> r2 /\ show_rule r1 = Ok s /\ show_rule r2 = Ok s) /\
  (exists r1 r2 rest1 rest2 s, p_rule (tokens (lit "match %a by - =")) = Parsed r1 rest1 /\
     p_rule (tokens (lit "match l by - =")) = Parsed r2 rest2 /\ r1 <> r2 /\ show_rule r1 = Ok s /\ show_rule r2 = Ok s).
Proof.
  split; do 5 eexists; (split; [vm_compute; reflexivity|]); (split; [vm_compute; reflexivity|]); (split; [discriminate|]); (split; [vm_compute; reflexivity|]); vm_compute; reflexivity.
Qed.
Print Assumptions C61_different_rules_look_different_refuted.
(** tests and patterns that are read back as they were *)
Example C61_read_back_examples :
  (exists l, parse_tests (lit "_0003[$ld.]!%abc2-03#1>=7""x""~") = Good l [] /\ show_tests l = Ok (lit "_3[$ld.]!%abc2-3#1>=7""x""~") /\
     parse_tests (lit "_3[$ld.]!%abc2-3#1>=7""x""~") = Good l []) /\
  (exists l, parse_match_pattern SPre (lit "%^a?(b|[cd]+.)!$") = Good l [] /\ show_patterns l = Ok (lit "^a?(b|[cd]+.)!^")).
Proof. split; eexists; (split; [vm_compute; reflexivity|]); [split|]; vm_compute; reflexivity. Qed.
