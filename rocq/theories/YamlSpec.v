(** Specification of test files: what a YAML document means, and what its tests give.
    Independent of the reader of YamlModel.v; the data types of tables and tests, and the
    functions of the library (reading a table, compiling it, translating) are used. *)
From Coq Require Import List String Sorted.
From Verif Require Import Base RuleModel TableModel BrailleModel BrailleProofs HyphenationModel TrieModel OperandSpec UnescapeSpec
  LoopModel ConstraintModel IndicatorModel PipelineModel ParserModel IncludeModel TranslatorModel YamlModel.
Import ListNotations.
Local Open Scope nat_scope.

(** ** YAML documents and their events *)
Inductive node :=
| Scalar (block : bool) (v : str)   (* [block]: a literal or folded block, or in one line *)
| Sequence (l : list node)
| Mapping (l : list (node * node))
| Reference.
Fixpoint events (n : node) : list yevent :=
  match n with
  | Scalar block v => [YScalar block v]
  | Sequence l => YSeqStart :: flat_map events l ++ [YSeqEnd]
  | Mapping l => YMapStart :: flat_map (fun kv => events (fst kv) ++ events (snd kv)) l ++ [YMapEnd]
  | Reference => [YAlias]
  end.
(** a file (UTF-8) with one document *)
Definition file_events (n : node) : list yevent := [YStreamStart (Some true); YDocStart] ++ events n ++ [YDocEnd; YStreamEnd].

Definition text (n : node) (v : str) : Prop := exists block, n = Scalar block v.
Definition word (w : string) (n : node) : Prop := text n (lit w).
Arguments word w%string n.
(** the last value given for something, or the value it has by default *)
Fixpoint latest {A B} (what : A -> option B) (default : B) (l : list A) : B :=
  match l with
  | [] => default
  | a :: r => latest what (match what a with Some b => b | None => default end) r
  end.
(** [assigned key l v]: [v] is the value of the last entry for [key] *)
Definition assigned {A} (key : str) (l : list (str * A)) (v : A) : Prop :=
  exists before after, l = before ++ (key, v) :: after /\ ~ In key (map fst after).

(** ** Tables *)
Inductive display_is : node -> display_source -> Prop :=
| di_path v : ~ In 44%N v -> display_is (Scalar false v) (DSimple v)
| di_commas parts : 2 <= length parts -> Forall (fun p => ~ In 44%N p) parts ->
    display_is (Scalar false (joins 44%N parts)) (DList parts)
| di_inline v : display_is (Scalar true v) (DInline v)
| di_list l paths : Forall2 text l paths -> display_is (Sequence l) (DList paths).
Definition both_text (kv : node * node) (ab : str * str) : Prop := text (fst kv) (fst ab) /\ text (snd kv) (snd ab).
Inductive table_is : node -> table_source -> Prop :=
| ta_path v : table_is (Scalar false v) (TSimple v)
| ta_inline v : table_is (Scalar true v) (TInline v)
| ta_list l paths : Forall2 text l paths -> table_is (Sequence l) (TList paths)
| ta_match l q v : Forall2 both_text l q -> assigned (lit "__assert-match") q v -> table_is (Mapping l) (TSimple v)
| ta_query l q : Forall2 both_text l q -> ~ In (lit "__assert-match") (map fst q) -> table_is (Mapping l) (TQuery (rev q)).
Inductive mode_is : node -> test_mode -> Prop :=
| mo_testmode k v w m : word "testmode" k -> word w v ->
    In (w, m) [("forward", MForward); ("backward", MBackward); ("bothDirections", MBothDirections);
               ("display", MDisplay); ("hyphenate", MHyphenate); ("hyphenateBraille", MHyphenateBraille)]%string ->
    mode_is (Mapping [(k, v)]) m.

(** ** Tests *)
Definition off_words : list str := map lit ["off"; "false"]%string.
Definition on_words : list str := map lit ["on"; "true"]%string.
Inductive simple_xfail : node -> expected_failure -> Prop :=
| sx_off n v : text n v -> In v off_words -> simple_xfail n (XSimple false)
| sx_on n v : text n v -> In v on_words -> simple_xfail n (XSimple true)
| sx_reason n v : text n v -> ~ In v off_words -> ~ In v on_words -> simple_xfail n (XReason v).
Inductive direction_word : node -> direction -> Prop :=
| dw_forward n : word "forward" n -> direction_word n Forward
| dw_backward n : word "backward" n -> direction_word n Backward.
(** the directions of a mapping that are expected to fail: those with a value other than off or false *)
Inductive failing_directions : list (node * node) -> list direction -> Prop :=
| fd_nil : failing_directions [] []
| fd_off k v d l ds : direction_word k d -> simple_xfail v (XSimple false) -> failing_directions l ds ->
    failing_directions ((k, v) :: l) ds
| fd_on k v d x l ds : direction_word k d -> simple_xfail v x -> x <> XSimple false -> failing_directions l ds ->
    failing_directions ((k, v) :: l) (d :: ds).
Inductive xfail_is : node -> expected_failure -> Prop :=
| xf_simple n x : simple_xfail n x -> xfail_is n x
| xf_directions l ds : failing_directions l ds -> xfail_is (Mapping l) (XDirection (rev ds)).
(** is the test expected to fail in this direction *)
Definition marked (x : expected_failure) (d : direction) : Prop :=
  match x with XSimple b => b = true | XReason _ => True | XDirection l => In d l end.

(** the spans of a mask: the longest runs of plus signs, from left to right *)
Definition plus_run (mask : str) (s e : nat) : Prop :=
  s < e <= length mask /\ (forall i, s <= i < e -> nth_error mask i = Some 43%N) /\
  (forall i, S i = s -> nth_error mask i <> Some 43%N) /\ nth_error mask e <> Some 43%N.
Definition mask_is (class mask : str) (l : list span) : Prop :=
  (forall sp, In sp l <-> exists s e, sp = mk_span class s e /\ plus_run mask s e) /\
  StronglySorted (fun a b => sp_end a < sp_start b) l.
Inductive typeform_is : list (node * node) -> list span -> Prop :=
| ty_nil : typeform_is [] []
| ty_class k v class mask spans l more : text k class -> text v mask -> mask_is class mask spans -> typeform_is l more ->
    typeform_is ((k, v) :: l) (spans ++ more).
(** a number up to 65535; a plus sign may stand before it *)
Definition u16_is (n : node) (v : N) : Prop :=
  exists t, text n t /\ (v <= 65535)%N /\ (decimal t v \/ exists t', t = 43%N :: t' /\ decimal t' v).
Inductive cursor_is : node -> cursor_position -> Prop :=
| cu_single n v : u16_is n v -> cursor_is n (Single v)
| cu_tuple a b v w : u16_is a v -> u16_is b w -> cursor_is (Sequence [a; b]) (Tuple v w).
Definition translation_mode_is (n : node) (m : mode) : Prop :=
  exists w, word w n /\ In (w, m) [("noContractions", NoContractions); ("compbrlAtCursor", CompbrlAtCursor); ("dotsIO", DotsIo);
     ("compbrlLeftCursor", CompbrlLeftCursor); ("ucBrl", UcBrl); ("noUndefined", NoUndefined); ("partialTrans", PartialTrans)]%string.

Inductive setting :=
| SXfail (x : expected_failure) | STypeform (l : list span) | SExpectedTypeform (l : list span)
| SInputPos (l : list N) | SOutputPos (l : list N) | SCursorPos (p : cursor_position) | SMode (l : list mode)
| SMaxOutputLength (n : N) | SRealInputLength (n : N).
Inductive setting_is : node * node -> setting -> Prop :=
| se_xfail k v x : word "xfail" k -> xfail_is v x -> setting_is (k, v) (SXfail x)
| se_typeform k l spans : word "typeform" k -> typeform_is l spans -> setting_is (k, Mapping l) (STypeform spans)
| se_expected_typeform k l spans : word "expected_typeform" k -> typeform_is l spans -> setting_is (k, Mapping l) (SExpectedTypeform spans)
| se_input_pos k l ns : word "inputPos" k -> Forall2 u16_is l ns -> setting_is (k, Sequence l) (SInputPos ns)
| se_output_pos k l ns : word "outputPos" k -> Forall2 u16_is l ns -> setting_is (k, Sequence l) (SOutputPos ns)
| se_cursor_pos k v p : word "cursorPos" k -> cursor_is v p -> setting_is (k, v) (SCursorPos p)
| se_mode k l ms : word "mode" k -> Forall2 translation_mode_is l ms -> setting_is (k, Sequence l) (SMode ms)
| se_max k v n : word "maxOutputLength" k -> u16_is v n -> setting_is (k, v) (SMaxOutputLength n)
| se_real k v n : word "realInputLength" k -> u16_is v n -> setting_is (k, v) (SRealInputLength n).
Definition a_xfail (s : setting) := match s with SXfail x => Some x | _ => None end.
Definition a_typeform (s : setting) := match s with STypeform x => Some x | _ => None end.
Definition an_expected_typeform (s : setting) := match s with SExpectedTypeform x => Some x | _ => None end.
Definition an_input_pos (s : setting) := match s with SInputPos x => Some x | _ => None end.
Definition an_output_pos (s : setting) := match s with SOutputPos x => Some x | _ => None end.
Definition a_cursor_pos (s : setting) := match s with SCursorPos x => Some (Some x) | _ => None end.
Definition a_mode (s : setting) := match s with SMode x => Some x | _ => None end.
Definition a_max (s : setting) := match s with SMaxOutputLength x => Some (Some x) | _ => None end.
Definition a_real (s : setting) := match s with SRealInputLength x => Some (Some x) | _ => None end.

(** a scalar whose text, with escapes decoded, is [t] *)
Definition escaped_text (n : node) (t : str) : Prop := exists v, text n v /\ Escaped false true v t.
Inductive test_is : node -> test -> Prop :=
| te_test scalars texts input expected options settings :
    Forall2 escaped_text scalars texts ->
    texts = [input; expected] \/ (exists description, texts = [description; input; expected]) ->
    options = [] /\ settings = [] \/ (exists l, options = [Mapping l] /\ Forall2 setting_is l settings) ->
    test_is (Sequence (scalars ++ options))
      (mk_test input expected (latest a_xfail (XSimple false) settings) (latest a_typeform [] settings)
         (latest an_expected_typeform [] settings) (latest an_input_pos [] settings) (latest an_output_pos [] settings)
         (latest a_cursor_pos None settings) (latest a_mode [] settings) (latest a_max None settings) (latest a_real None settings)).

(** ** Files *)
Inductive item := IDisplay (s : display_source) | ITable (s : table_source) | IFlags (m : test_mode) | ITests (l : list test).
Inductive item_is : node * node -> item -> Prop :=
| it_display k v s : word "display" k -> display_is v s -> item_is (k, v) (IDisplay s)
| it_table k v s : word "table" k -> table_is v s -> item_is (k, v) (ITable s)
| it_flags k v m : word "flags" k -> mode_is v m -> item_is (k, v) (IFlags m)
| it_tests k l tests : word "tests" k -> Forall2 test_is l tests -> item_is (k, Sequence l) (ITests tests).
Definition a_display (i : item) := match i with IDisplay s => Some (Some s) | _ => None end.
Definition a_flags (i : item) := match i with IFlags m => Some m | _ => None end.
Definition is_table (i : item) : Prop := match i with ITable _ => True | _ => False end.
(** the tables in force after [before]: the last group of tables that follow one another *)
Definition tables_in_force (before : list item) (tables : list table_source) : Prop :=
  exists front back, before = front ++ map ITable tables ++ back /\ Forall (fun i => ~ is_table i) back /\
    (forall front' i, front = front' ++ [i] -> ~ is_table i) /\
    (tables = [] -> front = []).

Section Results.
Variable ws : char -> bool.
Variable is_alphabetic : char -> bool.
Variable lower upper : char -> list char.
Variable long_sort : list event -> res (list event).
Variable compat forward_only : bool.
Variable order1 order2 : list str -> list str.
Variable fs : file_system.
Variable trim : str -> str.
Variable is_utf8_name is_latin1_name : str -> bool.
Variable parse_usize : str -> option nat.

Definition table_rules (s : table_source) (rules : list anchored) : Prop :=
  match s with
  | TSimple path => table_expanded ws fs path = Some (inl rules)
  | TList paths => tables_expanded ws fs paths = Some (inl rules)
  | TInline table => inline_expanded ws fs table = Some (inl rules)
  | TQuery _ => False
  end.
Definition display_rules (s : option display_source) (rules : list anchored) : Prop :=
  match s with
  | Some (DSimple path) => table_expanded ws fs path = Some (inl rules)
  | Some (DList paths) => tables_expanded ws fs paths = Some (inl rules)
  | Some (DInline table) => inline_expanded ws fs table = Some (inl rules)
  | None => rules = []
  end.
(** what the library makes of the input of a test: forward, the display table is applied to
    the translation, backward to the input *)
Definition translates (steps : list transformation) (shown : str -> str) (d : direction) (t : test) (actual : str) : Prop :=
  let options := mk_options (t_modes t) (t_emphasis t) None in
  match d with
  | Forward => exists s, pipeline_translate_with lower upper long_sort steps (t_input t) options = Ok s /\ actual = shown s
  | Backward => pipeline_translate_with lower upper long_sort steps (shown (t_input t)) options = Ok actual
  end.
Inductive verdict (t : test) (d : direction) (actual : str) : test_result -> Prop :=
| ve_success : actual = t_expected t -> ~ marked (t_xfail t) d -> verdict t d actual Success
| ve_unexpected : actual = t_expected t -> marked (t_xfail t) d -> verdict t d actual (UnexpectedSuccess (t_input t) d)
| ve_failure : actual <> t_expected t -> ~ marked (t_xfail t) d -> verdict t d actual (Failure (t_input t) (t_expected t) actual d)
| ve_expected : actual <> t_expected t -> marked (t_xfail t) d -> verdict t d actual (ExpectedFailure (t_input t) (t_expected t) actual d).
(** the tests, with one table *)
Definition table_results (shown : str -> str) (d : direction) (tests : list test) (table : table_source) (rs : list test_result) : Prop :=
  exists rules steps, table_rules table rules /\
    compiled is_alphabetic compat order1 order2 fs trim is_utf8_name is_latin1_name parse_usize rules d = Built steps /\
    Forall2 (fun t r => exists actual, translates steps shown d t actual /\ verdict t d actual r) tests rs.
(** the tests, with every table *)
Definition direction_results (display : option display_source) (tables : list table_source) (d : direction) (tests : list test) (rs : list test_result) : Prop :=
  exists rules, display_rules display rules /\
    let shown := display_translate (display_compile compat (map a_rule rules) d) in
    exists rss, Forall2 (table_results shown d tests) tables rss /\ rs = List.concat rss.
(** input and expected output change places *)
Definition swapped (t : test) : test :=
  mk_test (t_expected t) (t_input t) (t_xfail t) (t_emphasis t) (t_expected_emphasis t) (t_input_pos t) (t_output_pos t)
    (t_cursor_pos t) (t_modes t) (t_max_output_length t) (t_real_input_length t).
Definition section_results (display : option display_source) (tables : list table_source) (m : test_mode) (tests : list test) (rs : list test_result) : Prop :=
  let backward l rs := if forward_only then rs = [] else direction_results display tables Backward l rs in
  match m with
  | MForward => direction_results display tables Forward tests rs
  | MBackward => backward tests rs
  | MBothDirections => exists a b, rs = a ++ b /\ direction_results display tables Forward tests a /\ backward (map swapped tests) b
  | MDisplay | MHyphenate | MHyphenateBraille => rs = []
  end.
(** [file_results before items rs]: the items, which come after [before], give the results [rs] *)
Inductive file_results (before : list item) : list item -> list test_result -> Prop :=
| fr_end : file_results before [] []
| fr_other i rest rs : (forall l, i <> ITests l) -> file_results (before ++ [i]) rest rs -> file_results before (i :: rest) rs
| fr_tests tests rest tables rs more :
    tables_in_force before tables ->
    section_results (latest a_display None before) tables (latest a_flags MForward before) tests rs ->
    file_results (before ++ [ITests tests]) rest more ->
    file_results before (ITests tests :: rest) (rs ++ more).
End Results.
