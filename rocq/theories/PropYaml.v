(** C59 (test files), C60 (the report of [louis check]). *)
From Coq Require Import List String Sorted Permutation Lia.
From Verif Require Import Base BaseProofs RuleModel TableModel BrailleModel HyphenationModel TrieModel OperandModel UnescapeSpec
  LoopModel ConstraintModel IndicatorModel PipelineModel ParserModel IncludeModel IncludeProofs PropTableText PropInclude PropMainExamples TranslatorModel YamlModel YamlSpec YamlProofs YamlTotal.
Import ListNotations.
Local Open Scope nat_scope.

Section Yaml.
Variable ws : char -> bool.
Variable is_alphabetic : char -> bool.
Variable lower upper : char -> list char.
Variable long_sort : list event -> res (list event).
Variable compat forward_only : bool.
Variable order1 order2 : list str -> list str.
Variable fs : file_system.
Variable trim : str -> str.
Variable is_utf8_name is_latin1_name : str -> bool.
Variable parse_usize : str -> option nat.
Notation yaml := (yaml ws is_alphabetic lower upper long_sort compat forward_only order1 order2 fs trim is_utf8_name is_latin1_name parse_usize).
Notation file_results := (file_results ws is_alphabetic lower upper long_sort compat forward_only order1 order2 fs trim is_utf8_name is_latin1_name parse_usize).
Notation section_results := (section_results ws is_alphabetic lower upper long_sort compat forward_only order1 order2 fs trim is_utf8_name is_latin1_name parse_usize).
Notation direction_results := (direction_results ws is_alphabetic lower upper long_sort compat order1 order2 fs trim is_utf8_name is_latin1_name parse_usize).
Notation compiled := (compiled is_alphabetic compat order1 order2 fs trim is_utf8_name is_latin1_name parse_usize).
Notation translate_with := (pipeline_translate_with lower upper long_sort).

(** A test file gives results exactly when it is a document of the known form whose tables
    can all be read and compiled and whose tests can all be translated; the results are
    those of its tests, in order, with the display table, the tables and the mode in force. *)
Theorem C59_results : forall es rs, yaml es = YOk rs <->
  exists l items rest, es = file_events (Mapping l) ++ rest /\ Forall2 item_is l items /\ file_results [] items rs.
Proof. intros es rs. apply yaml_ok. Qed.

(** Reading always ends, without a panic: there are results or an error, unless a table's
    compilation panics, or a translation panics or does not end (C55, C02). *)
Theorem C59_ends : forall es,
  (forall rules d, compiled rules d <> Panicked) ->
  (forall rules d steps, compiled rules d = Built steps -> forall input o, exists s, translate_with steps input o = Ok s) ->
  (exists rs, yaml es = YOk rs) \/ exists e, yaml es = YErr e.
Proof.
  intros es NP TT.
  assert (LC : forall o, o <> None -> calm (loaded o)) by (intros [[]|] N; [apply calm_ok|apply calm_err|congruence]).
  assert (T1 : forall f, table_expanded ws fs f <> None) by (intros f; apply C38_ends).
  assert (TS : forall fl, tables_expanded ws fs fl <> None).
  { induction fl as [|f fl IH]; [discriminate|]. cbn [tables_expanded]. destruct (table_expanded ws fs f) as [[]|] eqn:E; [|discriminate|destruct (T1 _ E)].
    destruct (tables_expanded ws fs fl) as [[]|]; congruence. }
  assert (TI : forall t, inline_expanded ws fs t <> None) by (intros t; destruct (C38_inline ws fs t) as (res & E & _); congruence).
  assert (CT : forall rules d stps dt l, compiled rules d = Built stps -> calm (check_tests lower upper long_sort stps dt d l)).
  { intros rules d stps dt l B. induction l as [|t l IH]; cbn [check_tests]; [apply calm_ok|].
    assert (Q : exists a, check_test lower upper long_sort stps dt d t = Ok a).
    { unfold check_test. cbv zeta. destruct d; [destruct (TT _ _ _ B (t_input t) (with_emphasis (with_modes options_default (t_modes t)) (t_emphasis t))) as (s & E)
        |destruct (TT _ _ _ B (display_translate dt (t_input t)) (with_emphasis (with_modes options_default (t_modes t)) (t_emphasis t))) as (s & E)]; rewrite E; cbn [bind]; eauto. }
    destruct Q as (a & ->). apply calm_bind; [exact IH|]. intros. apply calm_ok. }
  assert (TB : forall tables dt d l, calm (check_tables ws is_alphabetic lower upper long_sort compat order1 order2 fs trim is_utf8_name is_latin1_name parse_usize tables dt d l)).
  { induction tables as [|t tables IH]; intros dt d l; cbn [check_tables]; [apply calm_ok|]. apply calm_bind.
    - unfold translation_table. apply calm_bind; [destruct t; try (apply LC; auto); apply calm_err|]. intros rules _.
      destruct (compiled rules d) as [st|[]|] eqn:E; try apply calm_ok; try apply calm_err. destruct (NP _ _ E).
    - intros stps E. apply translation_table_ok in E. destruct E as (rules & _ & B). apply calm_bind; [exact (CT _ _ _ _ _ B)|]. intros rs _.
      apply calm_bind; [apply IH|]. intros. apply calm_ok. }
  assert (TD : forall s tables d l, calm (check_direction ws is_alphabetic lower upper long_sort compat order1 order2 fs trim is_utf8_name is_latin1_name parse_usize s tables d l)).
  { intros s tables d l. unfold check_direction. apply calm_bind; [|intros; apply TB]. unfold display_table. apply calm_bind; [|intros; apply calm_ok].
    destruct s as [[]|]; try (apply LC; auto); apply calm_ok. }
  assert (C : calm (yaml es)).
  { unfold YamlModel.yaml. apply calm_bind; [destruct es as [|[] ?]; try (split; discriminate); destruct utf8 as [[]|]; split; discriminate|]. intros [u es1] _.
    apply calm_bind; [destruct es1 as [|[] ?]; split; discriminate|]. intros [u2 es2] _. apply calm_bind; [apply map_start_calm|]. intros [u3 es3] _. apply calm_bind.
    - apply while_calm.
      + intros [rs dp ts mo was] es4. unfold entry. apply calm_bind; [apply scalar_calm|]. intros [v es5] _.
        destruct (str_eqb v (lit "display")); [|destruct (str_eqb v (lit "table")); [|destruct (str_eqb v (lit "flags")); [|destruct (str_eqb v (lit "tests")); [|apply calm_err]]]];
          (apply calm_bind; [solve [apply display_calm|apply table_calm|apply flags_calm|apply tests_calm]|]); intros [x es6] _; try apply calm_ok.
        apply calm_bind; [|intros; apply calm_ok]. unfold check_matrix. destruct mo; try apply calm_ok.
        * apply TD.
        * destruct forward_only; [apply calm_ok|apply TD].
        * apply calm_bind; [apply TD|]. intros a _. apply calm_bind; [destruct forward_only; [apply calm_ok|apply TD]|]. intros. apply calm_ok.
      + intros a es4 a' r. apply (pair_shorter _ _ (entry_reads _ _ _ _ _ _ _ _ _ _ _ _ _ _)).
    - intros [s es4] _. apply calm_bind; [apply map_end_calm|]. intros [u4 es5] _. apply calm_bind; [destruct es5 as [|[] ?]; split; discriminate|]. intros [u5 es6] _.
      apply calm_bind; [destruct es6 as [|[] ?]; split; discriminate|]. intros [u6 es7] _. apply calm_ok. }
  destruct C as [C1 C2]. destruct (yaml es) as [rs|e| |]; eauto; congruence.
Qed.

(** The results of a section: one for every test, table and direction. *)
Lemma direction_count display tables d tests rs : direction_results display tables d tests rs -> length rs = length tables * length tests.
Proof.
  intros (rules & _ & rss & F & ->). induction F as [|t r ts rss (ru & st & _ & _ & F1) F IH]; [reflexivity|].
  cbn [List.concat length]. rewrite app_length, IH. assert (E : length tests = length r) by (clear - F1; induction F1; cbn; congruence). rewrite E. lia.
Qed.
Theorem C59_one_result_each : forall display tables m tests rs, section_results display tables m tests rs ->
  length rs = length tables * length tests *
    match m with MForward => 1 | MBackward => if forward_only then 0 else 1 | MBothDirections => if forward_only then 1 else 2 | _ => 0 end.
Proof.
  intros display tables m tests rs H. unfold YamlSpec.section_results in H. destruct m.
  - apply direction_count in H. lia.
  - destruct forward_only; [subst; cbn; lia|apply direction_count in H; lia].
  - destruct H as (a & b & -> & A & B). apply direction_count in A. rewrite app_length. destruct forward_only; [subst; cbn; lia|].
    apply direction_count in B. rewrite map_length in B. lia.
  - subst. cbn. lia.
  - subst. cbn. lia.
  - subst. cbn. lia.
Qed.
(** A file of the known form whose sections can be run has exactly one list of results. *)
Theorem C59_results_determined : forall l items items' rs rs',
  Forall2 item_is l items -> Forall2 item_is l items' -> file_results [] items rs -> file_results [] items' rs' -> rs = rs'.
Proof.
  intros l items items' rs rs' F F' R R'.
  assert (A : yaml (file_events (Mapping l)) = YOk rs) by (apply C59_results; exists l, items, []; rewrite app_nil_r; auto).
  assert (B : yaml (file_events (Mapping l)) = YOk rs') by (apply C59_results; exists l, items', []; rewrite app_nil_r; auto).
  congruence.
Qed.
(** What a test gives depends on its input, expected output, typeform, mode and xfail only:
    positions, lengths and the expected typeform are read, but never checked. *)
Theorem C59_unchecked : forall steps shown d t t' actual r,
  t_input t = t_input t' -> t_expected t = t_expected t' -> t_xfail t = t_xfail t' -> t_emphasis t = t_emphasis t' -> t_modes t = t_modes t' ->
  (translates lower upper long_sort steps shown d t actual <-> translates lower upper long_sort steps shown d t' actual) /\
  (verdict t d actual r <-> verdict t' d actual r).
Proof.
  intros steps shown d t t' actual r E1 E2 E3 E4 E5. unfold translates. rewrite E1, E4, E5. split; [tauto|].
  destruct t as [i e x em ee ip op cp ms mo ri], t' as [i' e' x' em' ee' ip' op' cp' ms' mo' ri']. cbn in E1, E2, E3. subst. clear.
  split; intros H; destruct H as [A B|A B|A B|A B]; match goal with |- verdict ?T ?d ?a _ =>
    first [exact (ve_success T d a A B)|exact (ve_unexpected T d a A B)|exact (ve_failure T d a A B)|exact (ve_expected T d a A B)] end.
Qed.
End Yaml.
Print Assumptions C59_results.
Print Assumptions C59_ends.
Print Assumptions C59_one_result_each.
Print Assumptions C59_results_determined.
Print Assumptions C59_unchecked.

(** ** C60: the report *)
(** Every result is counted in exactly one column. *)
Theorem C60_columns : forall file rs, let w := row_of file rs in
  w_file w = file /\ w_tests w = length rs /\ w_tests w = w_successes w + w_failures w + w_expected w + w_unexpected w /\
  (w_successes w = length rs <-> forall r, In r rs -> r = Success) /\
  (w_failures w = 0 <-> forall r i e a d, In r rs -> r <> Failure i e a d).
Proof.
  intros file rs w. subst w. cbn [row_of w_file w_tests w_successes w_failures w_expected w_unexpected]. unfold count.
  assert (LE : forall (f : test_result -> bool) l, length (filter f l) <= length l).
  { intros f l. induction l as [|r l IH]; [cbn; lia|]. cbn [filter]. destruct (f r); cbn [length]; lia. }
  split; [reflexivity|]. split; [reflexivity|]. split; [|split].
  - induction rs as [|r rs IH]; [reflexivity|]. destruct r; cbn [filter is_success is_failure is_expected_failure is_unexpected_success length]; lia.
  - induction rs as [|r rs IH]; [split; [intros _ r []|reflexivity]|]. destruct r; cbn [filter is_success length];
      [|split; [intros E; specialize (LE is_success rs); lia|intros H; specialize (H _ (or_introl eq_refl)); discriminate]..].
    split; [intros E r [<-|I]; [reflexivity|apply IH; [lia|exact I]]|]. intros H. f_equal. apply IH. intros r I. apply H. right. exact I.
  - split.
    + intros E r i e a d I ->. destruct (filter is_failure rs) eqn:F; [|discriminate].
      assert (X : In (Failure i e a d) (filter is_failure rs)) by (apply filter_In; auto). rewrite F in X. destruct X.
    + intros H. destruct (filter is_failure rs) as [|r l] eqn:F; [reflexivity|]. exfalso.
      assert (X : In r (filter is_failure rs)) by (rewrite F; left; reflexivity). apply filter_In in X. destruct X as [I X]. destruct r; try discriminate. exact (H _ _ _ _ _ I eq_refl).
Qed.
Print Assumptions C60_columns.
(** Without the summary: in the order of the files, every result of a file that is not a
    success, and a message for every file that has no results. *)
Theorem C60_details : forall l, check_yaml false l =
  flat_map (fun f => match f with
                     | (_, Some rs) => map PResult (filter (fun r => match r with Success => false | _ => true end) rs)
                     | (file, None) => [PError file]
                     end) l.
Proof.
  intros l. unfold check_yaml. generalize (mk_row [] 0 0 0 0 0) (@nil row). induction l as [|[file [rs|]] l IH]; intros t rows; cbn [report flat_map app]; [reflexivity| |f_equal; apply IH].
  rewrite IH. f_equal. f_equal. apply filter_ext. intros []; reflexivity.
Qed.
Print Assumptions C60_details.
(** the rows of the files that have results *)
Definition file_rows (l : list (str * option (list test_result))) : list row :=
  flat_map (fun f => match f with (file, Some rs) => [row_of file rs] | _ => [] end) l.
Definition bad_files (l : list (str * option (list test_result))) : list str :=
  flat_map (fun f => match f with (file, None) => [file] | _ => [] end) l.
(** Sorting by the number of tests that keeps the order of files with equally many. *)
Lemma insert_row_facts w l : Sorted (fun a b => w_tests a <= w_tests b) l ->
  Permutation (insert_row w l) (w :: l) /\ Sorted (fun a b => w_tests a <= w_tests b) (insert_row w l) /\
  (forall n, filter (fun v => w_tests v =? n) (insert_row w l) = filter (fun v => w_tests v =? n) (l ++ [w])) /\
  (forall v, HdRel (fun a b => w_tests a <= w_tests b) v l -> w_tests v <= w_tests w -> HdRel (fun a b => w_tests a <= w_tests b) v (insert_row w l)).
Proof.
  induction l as [|v l IH]; intros S; cbn [insert_row].
  - split; [reflexivity|]. split; [repeat constructor|]. split; [reflexivity|]. intros. constructor. assumption.
  - inversion S as [|? ? S1 H1]; subst. destruct (Nat.ltb_spec (w_tests w) (w_tests v)) as [LT|GE].
    + split; [reflexivity|]. split; [constructor; [exact S|constructor; lia]|]. split.
      * intros n. assert (SS : StronglySorted (fun a b => w_tests a <= w_tests b) (v :: l)) by (apply Sorted_StronglySorted; [intros x y z; lia|exact S]).
        rewrite filter_app. cbn [filter]. destruct (Nat.eqb_spec (w_tests w) n) as [E|E]; [|rewrite app_nil_r; reflexivity].
        assert (Z : filter (fun v => w_tests v =? n) (v :: l) = []).
        { destruct (filter _ (v :: l)) as [|x r] eqn:F; [reflexivity|]. assert (I : In x (filter (fun v => w_tests v =? n) (v :: l))) by (rewrite F; left; reflexivity).
          apply filter_In in I. destruct I as [I Q]. apply Nat.eqb_eq in Q. destruct I as [<-|I]; [lia|]. inversion SS as [|? ? _ FA]; subst. rewrite Forall_forall in FA. specialize (FA _ I). lia. }
        cbn [filter] in Z. rewrite Z. reflexivity.
      * intros x HX L. constructor. exact L.
    + destruct (IH S1) as (P & S2 & F & HD). split; [rewrite P; apply perm_swap|]. split; [constructor; [exact S2|apply HD; [exact H1|lia]]|]. split.
      * intros n. cbn [filter app]. rewrite F. reflexivity.
      * intros x HX L. inversion HX; subst. constructor. assumption.
Qed.
Lemma sort_rows_facts l : Permutation (sort_rows l) l /\ Sorted (fun a b => w_tests a <= w_tests b) (sort_rows l) /\
  forall n, filter (fun v => w_tests v =? n) (sort_rows l) = filter (fun v => w_tests v =? n) l.
Proof.
  unfold sort_rows. assert (G : forall l acc, Sorted (fun a b => w_tests a <= w_tests b) acc -> let out := fold_left (fun acc w => insert_row w acc) l acc in
    Permutation out (acc ++ l) /\ Sorted (fun a b => w_tests a <= w_tests b) out /\ forall n, filter (fun v => w_tests v =? n) out = filter (fun v => w_tests v =? n) (acc ++ l)).
  { clear l. induction l as [|w l IH]; intros acc S; cbn [fold_left].
    - cbv zeta. rewrite app_nil_r. auto.
    - destruct (insert_row_facts w acc S) as (P & S1 & F & _). destruct (IH _ S1) as (P2 & S2 & F2). split; [|split; [exact S2|]].
      + rewrite P2, P. cbn. apply Permutation_middle.
      + intros n. rewrite F2, !filter_app, F, filter_app, <- app_assoc. cbn [filter]. destruct (w_tests w =? n); reflexivity. }
  apply (G l []). constructor.
Qed.
(** With the summary: a message for every file without results, then one row for every other
    file, by the number of tests, and a last row with the sums of the columns. *)
Theorem C60_summary : forall l, exists rows total,
  check_yaml true l = map PError (bad_files l) ++ [PTable (rows ++ [total])] /\
  Permutation rows (file_rows l) /\ Sorted (fun a b => w_tests a <= w_tests b) rows /\
  (forall n, filter (fun v => w_tests v =? n) rows = filter (fun v => w_tests v =? n) (file_rows l)) /\
  w_file total = lit "Total" /\
  w_tests total = list_sum (map w_tests (file_rows l)) /\ w_successes total = list_sum (map w_successes (file_rows l)) /\
  w_failures total = list_sum (map w_failures (file_rows l)) /\ w_expected total = list_sum (map w_expected (file_rows l)) /\
  w_unexpected total = list_sum (map w_unexpected (file_rows l)).
Proof.
  intros l. unfold check_yaml.
  assert (G : forall l t rows, exists total, report true l t rows = map PError (bad_files l) ++ [PTable (sort_rows (rows ++ file_rows l) ++ [total])] /\ w_file total = lit "Total" /\
    w_tests total = w_tests t + list_sum (map w_tests (file_rows l)) /\ w_successes total = w_successes t + list_sum (map w_successes (file_rows l)) /\
    w_failures total = w_failures t + list_sum (map w_failures (file_rows l)) /\ w_expected total = w_expected t + list_sum (map w_expected (file_rows l)) /\
    w_unexpected total = w_unexpected t + list_sum (map w_unexpected (file_rows l))).
  { clear l. induction l as [|[file [rs|]] l IH]; intros t rows.
    - eexists. cbn [report bad_files file_rows flat_map map list_sum fold_right]. rewrite app_nil_r. split; [reflexivity|]. cbn [w_file w_tests w_successes w_failures w_expected w_unexpected list_sum fold_right map].
      split; [reflexivity|]. lia.
    - destruct (IH (row_add t (row_of file rs)) (rows ++ [row_of file rs])) as (total & E & H). exists total. cbn [report]. split.
      + cbn [app]. rewrite E. cbn [bad_files file_rows flat_map app]. rewrite <- app_assoc. reflexivity.
      + cbn [file_rows flat_map app map list_sum fold_right]. fold (file_rows l). cbn [row_add w_file w_tests w_successes w_failures w_expected w_unexpected] in H. unfold list_sum in H |- *. lia || (destruct H as (H0 & H1 & H2 & H3 & H4 & H5); split; [exact H0|lia]).
    - destruct (IH t rows) as (total & E & H). exists total. cbn [report]. split; [rewrite E; reflexivity|exact H]. }
  destruct (G l (mk_row [] 0 0 0 0 0) []) as (total & E & H). destruct (sort_rows_facts (file_rows l)) as (P & S & F).
  exists (sort_rows (file_rows l)), total. split; [exact E|]. split; [exact P|]. split; [exact S|]. split; [exact F|]. exact H.
Qed.
Print Assumptions C60_summary.

(** ** Examples *)
Definition ex_yaml (forward_only : bool) (n : node) : yres (list test_result) :=
  yaml ex_ws ex_alpha ex_lower ex_upper ex_sort true forward_only (fun l => l) (fun l => l)
    (ex_fs [(lit "letters", ex_lines [lit "letter a 1"; lit "letter b 12"]); (lit "word", ex_lines [lit "include letters"; lit "word ab 6"]);
            (lit "bad", ex_lines [lit "letter"])])
    (fun s => s) (fun _ => false) (fun _ => false) (fun _ => None) (file_events n).
Definition ex_s (s : string) : node := Scalar false (lit s).
Arguments ex_s s%string.
Definition ex_b (l : list N) : node := Scalar false l.
Definition ex_section (before : list (node * node)) (tests : list node) : node := Mapping (before ++ [(ex_s "tests", Sequence tests)]).
(** two tables in sequence; a test with a description, one that is expected to fail, one
    whose failure is reported *)
Example C59_example : ex_yaml false (ex_section
    [(ex_s "table", ex_s "letters"); (ex_s "table", ex_s "word"); (ex_s "flags", Mapping [(ex_s "testmode", ex_s "forward")])]
    [Sequence [ex_s "ab"; ex_b [10241; 10243]%N];
     Sequence [ex_s "a description"; ex_s "\x0061"; ex_b [10241]%N; Mapping [(ex_s "inputPos", Sequence [ex_s "7"])]];
     Sequence [ex_s "b"; ex_s "x"; Mapping [(ex_s "xfail", ex_s "wrong output")]]]) =
  YOk [Success; Success; ExpectedFailure (lit "b") (lit "x") [10243%N] Forward;
       Failure (lit "ab") [10241; 10243]%N [10272%N] Forward; Success; ExpectedFailure (lit "b") (lit "x") [10243%N] Forward].
Proof. vm_compute. reflexivity. Qed.
(** both directions, a display table *)
Example C59_example_both : ex_yaml false (ex_section
    [(ex_s "display", Scalar true (ex_lines [lit "display A 1"; lit "display B 12"])); (ex_s "table", Sequence [ex_s "letters"]);
     (ex_s "flags", Mapping [(ex_s "testmode", ex_s "bothDirections")])]
    [Sequence [ex_s "ab"; ex_s "AB"; Mapping [(ex_s "xfail", Mapping [(ex_s "backward", ex_s "true")])]]; Sequence [ex_s "ba"; ex_s "BA"]]) =
  YOk [Success; Success; UnexpectedSuccess (lit "AB") Backward; Success].
Proof. vm_compute. reflexivity. Qed.
(** errors: a table that is not right, a table found by a query, an unknown key, a wrong escape
    in a description *)
Example C59_example_errors :
  ex_yaml false (ex_section [(ex_s "table", ex_s "bad")] []) =
    YErr (TestError (TableErrors [TParse (Some (lit "bad")) 1 (ESingleChar None)])) /\
  ex_yaml false (ex_section [(ex_s "table", Mapping [(ex_s "locale", ex_s "de")])] []) = YErr (TestError NotImplemented) /\
  ex_yaml false (Mapping [(ex_s "Table", ex_s "letters")]) = YErr (InvalidToken (lit "Table")) /\
  ex_yaml false (ex_section [(ex_s "table", ex_s "letters")] [Sequence [ex_s "c:\dir"; ex_s "a"; ex_b [10241]%N]]) = YErr InvalidEscape.
Proof. vm_compute. repeat split; reflexivity. Qed.
(** "Every test of a file is run" does not hold: not with the modes for display tables and
    hyphenation, not backward if the program was compiled with LOUIS_TEST_FORWARD_ONLY, and
    not without a table. *)
Theorem C59_every_test_is_run_refuted :
  let tests := [Sequence [ex_s "a"; ex_s "wrong"]] in
  (forall mode, In mode ["display"; "hyphenate"; "hyphenateBraille"]%string ->
     ex_yaml false (ex_section [(ex_s "table", ex_s "letters"); (ex_s "flags", Mapping [(ex_s "testmode", Scalar false (lit mode))])] tests) = YOk []) /\
  ex_yaml true (ex_section [(ex_s "table", ex_s "letters"); (ex_s "flags", Mapping [(ex_s "testmode", ex_s "backward")])] tests) = YOk [] /\
  ex_yaml false (ex_section [] tests) = YOk [].
Proof.
  cbv zeta. split; [|vm_compute; split; reflexivity]. intros mode [<-|[<-|[<-|[]]]]; vm_compute; reflexivity.
Qed.
Print Assumptions C59_every_test_is_run_refuted.
(** "A test with wrong positions fails" does not hold. *)
Theorem C59_positions_refuted :
  ex_yaml false (ex_section [(ex_s "table", ex_s "letters")]
    [Sequence [ex_s "a"; ex_b [10241]%N; Mapping [(ex_s "inputPos", Sequence [ex_s "7"]); (ex_s "outputPos", Sequence []); (ex_s "cursorPos", ex_s "9");
                                                 (ex_s "maxOutputLength", ex_s "0"); (ex_s "realInputLength", ex_s "5")]]]) = YOk [Success].
Proof. vm_compute. reflexivity. Qed.
Print Assumptions C59_positions_refuted.
Example C60_example :
  let f := Failure (lit "a") (lit "b") (lit "c") Forward in
  check_yaml false [(lit "x", Some [Success; f; Success]); (lit "y", None); (lit "z", Some [Success])] = [PResult f; PError (lit "y")] /\
  check_yaml true [(lit "x", Some [Success; f; Success]); (lit "y", None); (lit "z", Some [Success])] =
    [PError (lit "y"); PTable [mk_row (lit "z") 1 1 0 0 0; mk_row (lit "x") 3 2 1 0 0; mk_row (lit "Total") 4 3 1 0 0]].
Proof. vm_compute. split; reflexivity. Qed.
