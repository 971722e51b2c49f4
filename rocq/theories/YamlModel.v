(** Model of the test runner: reading YAML test files (src/yaml.rs), running their tests
    (src/test.rs) and the counting of [louis check] (src/main.rs:299-360).

    The YAML library (libyaml) is not modelled: the parser of yaml.rs is modelled as a
    function of the list of events the library hands out; [YFailed] is an event that is an
    error, and the end of the list is an iterator that returns nothing more.  Of errors only
    the kind is kept.  Tests run in parallel (rayon, order-preserving [collect]); running a
    test changes nothing, so they are run one after the other here.  The environment
    variable LOUIS_TEST_FORWARD_ONLY of the compilation is the parameter [forward_only].
    The iteration order of hash maps ([order1], [order2]) is the same in all compilations. *)
From Coq Require Import List String.
From Verif Require Import Base RuleModel TableModel BrailleModel HyphenationModel TrieModel OperandModel LoopModel ConstraintModel
  IndicatorModel PipelineModel ParserModel IncludeModel TranslatorModel.
Import ListNotations.
Local Open Scope nat_scope.

(** libyaml [Event]; of a scalar, whether it is a block literal or folded scalar. *)
Inductive yevent :=
| YStreamStart (utf8 : option bool)   (* the encoding, if known: is it UTF-8 *)
| YStreamEnd | YDocStart | YDocEnd | YAlias
| YScalar (block : bool) (v : str)
| YSeqStart | YSeqEnd | YMapStart | YMapEnd
| YFailed.

(** test.rs:16-24 [TestError]. *)
Inductive test_error := NotImplemented | TableErrors (es : list table_error) | CompilationError (e : terr).
(** yaml.rs:20-59 [ParseError]. *)
Inductive yaml_error :=
| ScalarExpected | StreamStartExpected | StreamEndExpected | DocumentStartExpected | DocumentEndExpected
| SequenceStartExpected | SequenceEndExpected | MappingStartExpected | MappingEndExpected
| InvalidTestMode | InvalidNumber | InvalidEncoding | InvalidMode (v : str) | InvalidXFail | InvalidTableValue
| InvalidToken (v : str) | TestError (e : test_error) | InvalidEscape.
(** [Result<A, ParseError>], a panic, or fuel used up (never, see YamlProofs.v). *)
Inductive yres (A : Type) := YOk (a : A) | YErr (e : yaml_error) | YPanic | YNoFuel.
Arguments YOk {A} a. Arguments YErr {A} e. Arguments YPanic {A}. Arguments YNoFuel {A}.
Definition ybind {A B} (m : yres A) (f : A -> yres B) : yres B :=
  match m with YOk a => f a | YErr e => YErr e | YPanic => YPanic | YNoFuel => YNoFuel end.
Notation "'ydo' x <- m ; f" := (ybind m (fun x => f)) (at level 60, x pattern, m at level 59, right associativity).
(** a method of [YAMLParser] *)
Definition yp (A : Type) : Type := list yevent -> yres (A * list yevent).

(** ** yaml.rs, the parser *)
(** 72-77 [scalar]. *)
Definition y_scalar : yp str := fun es =>
  match es with YScalar _ v :: r => YOk (v, r) | _ => YErr ScalarExpected end.
(** 79-105. *)
Definition mapping_start : yp unit := fun es =>
  match es with YMapStart :: r => YOk (tt, r) | _ => YErr MappingStartExpected end.
Definition mapping_end : yp unit := fun es =>
  match es with YMapEnd :: r => YOk (tt, r) | _ => YErr MappingEndExpected end.
Definition sequence_start : yp unit := fun es =>
  match es with YSeqStart :: r => YOk (tt, r) | _ => YErr SequenceStartExpected end.
Definition sequence_end : yp unit := fun es =>
  match es with YSeqEnd :: r => YOk (tt, r) | _ => YErr SequenceEndExpected end.
(** [while let Some(Ok(Event::Scalar { .. })) = self.events.peek() { body }]. *)
Fixpoint scalar_loop {A} (body : A -> yp A) (fuel : nat) (a : A) (es : list yevent) : yres (A * list yevent) :=
  match es with
  | YScalar _ _ :: _ =>
      match fuel with
      | 0 => YNoFuel
      | S f => ydo (a', r) <- body a es; scalar_loop body f a' r
      end
  | _ => YOk (a, es)
  end.
Definition while_scalar {A} (body : A -> yp A) (a : A) : yp A := fun es => scalar_loop body (length es) a es.

(** test.rs:232-243 [Display], 219-229 [Table], 263-267 [ExpectedFailure]. *)
Inductive display_source := DSimple (path : str) | DList (paths : list str) | DInline (text : str).
Inductive table_source := TSimple (path : str) | TQuery (q : list (str * str)) | TList (paths : list str) | TInline (text : str).
Inductive test_mode := MForward | MBackward | MBothDirections | MDisplay | MHyphenate | MHyphenateBraille.
Inductive expected_failure := XSimple (b : bool) | XReason (reason : str) | XDirection (l : list direction).
Inductive cursor_position := Single (n : N) | Tuple (n m : N).

(** 142-151 [table_list]. *)
Definition table_list : yp (list str) := fun es =>
  ydo (_, es) <- sequence_start es;
  ydo (l, es) <- while_scalar (fun l es => ydo (v, es) <- y_scalar es; YOk (l ++ [v], es)) [] es;
  ydo (_, es) <- sequence_end es;
  YOk (l, es).
(** 107-128 [display_table]. *)
Definition y_display : yp display_source := fun es =>
  match es with
  | YSeqStart :: _ => ydo (l, es) <- table_list es; YOk (DList l, es)
  | YScalar true _ :: _ => ydo (v, es) <- y_scalar es; YOk (DInline v, es)
  | YScalar false _ :: _ =>
      ydo (v, es) <- y_scalar es;
      if mem 44%N v then YOk (DList (split_on 44%N v), es) else YOk (DSimple v, es)
  | _ => YErr InvalidTableValue
  end.
(** 130-140 [table_query]; a [HashMap] is the list of its insertions, the last one first. *)
Definition table_query : yp (list (str * str)) := fun es =>
  ydo (_, es) <- mapping_start es;
  ydo (q, es) <- while_scalar (fun q es => ydo (k, es) <- y_scalar es; ydo (v, es) <- y_scalar es; YOk ((k, v) :: q, es)) [] es;
  ydo (_, es) <- mapping_end es;
  YOk (q, es).
Definition query_get (q : list (str * str)) (k : str) : option str :=
  match find (fun kv => str_eqb (fst kv) k) q with Some (_, v) => Some v | None => None end.
(** 153-176 [table]. *)
Definition y_table : yp table_source := fun es =>
  match es with
  | YMapStart :: _ =>
      ydo (q, es) <- table_query es;
      YOk (match query_get q (lit "__assert-match") with Some v => TSimple v | None => TQuery q end, es)
  | YSeqStart :: _ => ydo (l, es) <- table_list es; YOk (TList l, es)
  | YScalar true _ :: _ => ydo (v, es) <- y_scalar es; YOk (TInline v, es)
  | YScalar false _ :: _ => ydo (v, es) <- y_scalar es; YOk (TSimple v, es)
  | _ => YErr InvalidTableValue
  end.
(** a [match] on a string *)
Fixpoint named {A} (l : list (string * A)) (v : str) : option A :=
  match l with [] => None | (n, a) :: r => if str_eqb (lit n) v then Some a else named r v end.
Definition test_modes : list (string * test_mode) :=
  [("forward", MForward); ("backward", MBackward); ("bothDirections", MBothDirections); ("display", MDisplay);
   ("hyphenate", MHyphenate); ("hyphenateBraille", MHyphenateBraille)]%string.
(** 178-199 [flags]. *)
Definition y_flags : yp test_mode := fun es =>
  ydo (_, es) <- mapping_start es;
  ydo (v, es) <- y_scalar es;
  if negb (str_eqb v (lit "testmode")) then YErr InvalidTestMode else
  ydo (m, es) <- y_scalar es;
  match named test_modes m with
  | None => YErr InvalidTestMode
  | Some m => ydo (_, es) <- mapping_end es; YOk (m, es)
  end.
(** 201-209 [xfail_value]. *)
Definition xfail_words : list (string * bool) := [("off", false); ("false", false); ("on", true); ("true", true)]%string.
Definition xfail_value : yp expected_failure := fun es =>
  ydo (v, es) <- y_scalar es;
  YOk (match named xfail_words v with Some b => XSimple b | None => XReason v end, es).
Definition is_expected (x : expected_failure) : bool :=
  match x with XSimple true | XReason _ => true | _ => false end.
(** 211-238 [xfail_mapping_value]; an [EnumSet] is the list of its insertions. *)
Definition xfail_mapping_value : yp (list direction) := fun es =>
  ydo (_, es) <- mapping_start es;
  ydo (l, es) <- while_scalar (fun l es =>
      ydo (w, es) <- y_scalar es;
      ydo (v, es) <- xfail_value es;
      match named [("forward", Forward); ("backward", Backward)]%string w with
      | Some d => YOk (if is_expected v then d :: l else l, es)
      | None => YErr InvalidXFail
      end) [] es;
  ydo (_, es) <- mapping_end es;
  YOk (l, es).
(** 240-248 [xfail]. *)
Definition y_xfail : yp expected_failure := fun es =>
  match es with
  | YMapStart :: _ => ydo (l, es) <- xfail_mapping_value es; YOk (XDirection l, es)
  | YScalar _ _ :: _ => xfail_value es
  | _ => YErr InvalidXFail
  end.
(** 256-270: the spans of a mask; [i] is the index, [start] the beginning of the current run. *)
Fixpoint mask_spans (class : str) (mask : str) (i : nat) (start : option nat) : list span :=
  match mask with
  | [] => match start with Some s => [mk_span class s i] | None => [] end
  | c :: r =>
      match N.eqb c 43, start with
      | true, None => mask_spans class r (S i) (Some i)
      | false, Some s => mk_span class s i :: mask_spans class r (S i) None
      | _, _ => mask_spans class r (S i) start
      end
  end.
(** 250-274 [emphasis_spans_value]. *)
Definition emphasis_spans_value : yp (list span) := fun es =>
  ydo (_, es) <- mapping_start es;
  ydo (l, es) <- while_scalar (fun l es =>
      ydo (class, es) <- y_scalar es;
      ydo (mask, es) <- y_scalar es;
      YOk (l ++ mask_spans class mask 0 None, es)) [] es;
  ydo (_, es) <- mapping_end es;
  YOk (l, es).
(** [str::parse::<u16>]: digits, behind at most one plus sign. *)
Definition parse_u16 (s : str) : option N :=
  let d := match s with c :: r => if N.eqb c 43 then r else s | [] => [] end in
  if is_empty d then None
  else if forallb is_ascii_digit d then
    let v := fold_left (fun acc c => acc * 10 + (c - 48))%N d 0%N in if N.leb v 65535 then Some v else None
  else None.
(** 276-280 [u16_value]. *)
Definition u16_value : yp N := fun es =>
  ydo (v, es) <- y_scalar es;
  match parse_u16 v with Some n => YOk (n, es) | None => YErr InvalidNumber end.
(** 282-291 [pos_values]. *)
Definition pos_values : yp (list N) := fun es =>
  ydo (_, es) <- sequence_start es;
  ydo (l, es) <- while_scalar (fun l es => ydo (n, es) <- u16_value es; YOk (l ++ [n], es)) [] es;
  ydo (_, es) <- sequence_end es;
  YOk (l, es).
(** 293-304 [cursor_position]. *)
Definition y_cursor_position : yp cursor_position := fun es =>
  match es with
  | YSeqStart :: _ =>
      ydo (_, es) <- sequence_start es;
      ydo (n, es) <- u16_value es;
      ydo (m, es) <- u16_value es;
      ydo (_, es) <- sequence_end es;
      YOk (Tuple n m, es)
  | _ => ydo (n, es) <- u16_value es; YOk (Single n, es)
  end.
(** 306-321 [translation_mode_value]. *)
Definition mode_names : list (string * mode) :=
  [("noContractions", NoContractions); ("compbrlAtCursor", CompbrlAtCursor); ("dotsIO", DotsIo);
   ("compbrlLeftCursor", CompbrlLeftCursor); ("ucBrl", UcBrl); ("noUndefined", NoUndefined); ("partialTrans", PartialTrans)]%string.
Definition translation_mode_value : yp mode := fun es =>
  ydo (v, es) <- y_scalar es;
  match named mode_names v with Some m => YOk (m, es) | None => YErr (InvalidMode v) end.
(** 323-332 [translation_modes]. *)
Definition translation_modes : yp (list mode) := fun es =>
  ydo (_, es) <- sequence_start es;
  ydo (l, es) <- while_scalar (fun l es => ydo (m, es) <- translation_mode_value es; YOk (l ++ [m], es)) [] es;
  ydo (_, es) <- sequence_end es;
  YOk (l, es).

(** test.rs:281-295 [Test]. *)
Record test := mk_test {
  t_input : str; t_expected : str; t_xfail : expected_failure; t_emphasis : list span;
  t_expected_emphasis : list span; t_input_pos : list N; t_output_pos : list N; t_cursor_pos : option cursor_position;
  t_modes : list mode; t_max_output_length : option N; t_real_input_length : option N }.
Definition unescaped (s : str) : yres str :=
  match unescape EscDefault s with Good t _ => YOk t | Bad => YErr InvalidEscape | NoFuel => YNoFuel end.
Definition y_text : yp str := fun es => ydo (s, es) <- y_scalar es; ydo t <- unescaped s; YOk (t, es).
(** the local variables of [test] *)
Definition plain_test (input expected : str) : test :=
  mk_test input expected (XSimple false) [] [] [] [] None [] None None.
(** 363-405: one entry of the options of a test. *)
Definition test_option (t : test) : yp test := fun es =>
  let '(mk_test i e x em ee ip op cp ms mo ri) := t in
  ydo (v, es) <- y_scalar es;
  if str_eqb v (lit "xfail") then ydo (x, es) <- y_xfail es; YOk (mk_test i e x em ee ip op cp ms mo ri, es)
  else if str_eqb v (lit "typeform") then ydo (em, es) <- emphasis_spans_value es; YOk (mk_test i e x em ee ip op cp ms mo ri, es)
  else if str_eqb v (lit "expected_typeform") then ydo (ee, es) <- emphasis_spans_value es; YOk (mk_test i e x em ee ip op cp ms mo ri, es)
  else if str_eqb v (lit "inputPos") then ydo (ip, es) <- pos_values es; YOk (mk_test i e x em ee ip op cp ms mo ri, es)
  else if str_eqb v (lit "outputPos") then ydo (op, es) <- pos_values es; YOk (mk_test i e x em ee ip op cp ms mo ri, es)
  else if str_eqb v (lit "cursorPos") then ydo (p, es) <- y_cursor_position es; YOk (mk_test i e x em ee ip op (Some p) ms mo ri, es)
  else if str_eqb v (lit "mode") then ydo (ms, es) <- translation_modes es; YOk (mk_test i e x em ee ip op cp ms mo ri, es)
  else if str_eqb v (lit "maxOutputLength") then ydo (n, es) <- u16_value es; YOk (mk_test i e x em ee ip op cp ms (Some n) ri, es)
  else if str_eqb v (lit "realInputLength") then ydo (n, es) <- u16_value es; YOk (mk_test i e x em ee ip op cp ms mo (Some n), es)
  else YErr (InvalidToken v).
(** 334-423 [test]. *)
Definition y_test : yp test := fun es =>
  ydo (_, es) <- sequence_start es;
  ydo (input, es) <- y_text es;
  ydo (expected, es) <- y_text es;
  ydo (input, expected, es) <- match es with
                               | YScalar _ _ :: _ => ydo (e, es) <- y_text es; YOk (expected, e, es)
                               | _ => YOk (input, expected, es)
                               end;
  ydo (t, es) <- match es with
                 | YMapStart :: _ =>
                     ydo (_, es) <- mapping_start es;
                     ydo (t, es) <- while_scalar test_option (plain_test input expected) es;
                     ydo (_, es) <- mapping_end es;
                     YOk (t, es)
                 | _ => YOk (plain_test input expected, es)
                 end;
  ydo (_, es) <- sequence_end es;
  YOk (t, es).
(** 425-433 [tests]: [while let Some(Ok(Event::SequenceStart { .. })) = self.events.peek()]. *)
Fixpoint tests_loop (fuel : nat) (l : list test) (es : list yevent) : yres (list test * list yevent) :=
  match es with
  | YSeqStart :: _ =>
      match fuel with
      | 0 => YNoFuel
      | S f => ydo (t, es) <- y_test es; tests_loop f (l ++ [t]) es
      end
  | _ => YOk (l, es)
  end.
Definition y_tests : yp (list test) := fun es =>
  ydo (_, es) <- sequence_start es;
  ydo (l, es) <- tests_loop (length es) [] es;
  ydo (_, es) <- sequence_end es;
  YOk (l, es).
(** 435-469 *)
Definition stream_start : yp unit := fun es =>
  match es with
  | YStreamStart (Some true) :: r => YOk (tt, r)
  | YStreamStart (Some false) :: _ => YErr InvalidEncoding
  | _ => YErr StreamStartExpected
  end.
Definition stream_end : yp unit := fun es =>
  match es with YStreamEnd :: r => YOk (tt, r) | _ => YErr StreamEndExpected end.
Definition document_start : yp unit := fun es =>
  match es with YDocStart :: r => YOk (tt, r) | _ => YErr DocumentStartExpected end.
Definition document_end : yp unit := fun es =>
  match es with YDocEnd :: r => YOk (tt, r) | _ => YErr DocumentEndExpected end.

(** ** test.rs, running *)
(** test.rs:42-60 [TestResult]. *)
Inductive test_result :=
| Success
| Failure (input expected actual : str) (d : direction)
| ExpectedFailure (input expected actual : str) (d : direction)
| UnexpectedSuccess (input : str) (d : direction).
(** test.rs:62-75. *)
Definition is_success (r : test_result) : bool := match r with Success => true | _ => false end.
Definition is_failure (r : test_result) : bool := match r with Failure _ _ _ _ => true | _ => false end.
Definition is_expected_failure (r : test_result) : bool := match r with ExpectedFailure _ _ _ _ => true | _ => false end.
Definition is_unexpected_success (r : test_result) : bool := match r with UnexpectedSuccess _ _ => true | _ => false end.
(** test.rs:269-277 [ExpectedFailure::is_failure]. *)
Definition direction_eqb (a b : direction) : bool :=
  match a, b with Forward, Forward | Backward, Backward => true | _, _ => false end.
Definition fails_in (x : expected_failure) (d : direction) : bool :=
  match x with
  | XSimple b => b
  | XReason _ => true
  | XDirection l => existsb (direction_eqb d) l
  end.
(** test.rs:385-391 [reverse]. *)
Definition reversed (t : test) : test :=
  let '(mk_test i e x em ee ip op cp ms mo ri) := t in mk_test e i x em ee ip op cp ms mo ri.

Section Run.
Variable ws : char -> bool.
Variable is_alphabetic : char -> bool.
Variable lower upper : char -> list char.
Variable long_sort : list event -> res (list event).
Variable compat forward_only : bool.
Variable order1 order2 : list str -> list str.
Variable fs : file_system.
Variable trim : str -> str.
Variable is_utf8_name is_latin1_name : str -> bool.
Variable parse_usize : str -> option nat.

(** test.rs:298-345 [Test::check]. *)
Definition check_test (steps : list transformation) (dt : display) (d : direction) (t : test) : res test_result :=
  let options := with_emphasis (with_modes options_default (t_modes t)) (t_emphasis t) in
  do translated <- match d with
                   | Forward => do s <- pipeline_translate_with lower upper long_sort steps (t_input t) options; Ok (display_translate dt s)
                   | Backward => pipeline_translate_with lower upper long_sort steps (display_translate dt (t_input t)) options
                   end;
  Ok (if str_eqb translated (t_expected t)
      then if negb (fails_in (t_xfail t) d) then Success else UnexpectedSuccess (t_input t) d
      else if fails_in (t_xfail t) d then ExpectedFailure (t_input t) (t_expected t) translated d
           else Failure (t_input t) (t_expected t) translated d).
(** [?] on the rules of a table; [None] is no fuel (never: C38_ends) *)
Definition loaded (o : option table_result) : yres (list anchored) :=
  match o with
  | Some (inl rules) => YOk rules
  | Some (inr errors) => YErr (TestError (TableErrors errors))
  | None => YNoFuel
  end.
(** test.rs:106-125 [display_table]. *)
Definition display_table (s : option display_source) (d : direction) : yres display :=
  ydo rules <- match s with
               | Some (DSimple path) => loaded (table_expanded ws fs path)
               | Some (DInline text) => loaded (inline_expanded ws fs text)
               | Some (DList paths) => loaded (tables_expanded ws fs paths)
               | None => YOk []
               end;
  YOk (display_compile compat (map a_rule rules) d).
(** test.rs:127-148 [translation_table]. *)
Definition translation_table (s : table_source) (d : direction) : yres (list transformation) :=
  ydo rules <- match s with
               | TSimple path => loaded (table_expanded ws fs path)
               | TList paths => loaded (tables_expanded ws fs paths)
               | TInline text => loaded (inline_expanded ws fs text)
               | TQuery _ => YErr (TestError NotImplemented)
               end;
  match compiled is_alphabetic compat order1 order2 fs trim is_utf8_name is_latin1_name parse_usize rules d with
  | Built steps => YOk steps
  | Refused (TranslationFailed e) => YErr (TestError (CompilationError e))
  | Refused (ParseFailed es) => YErr (TestError (TableErrors es))
  | Panicked => YPanic
  end.
Fixpoint check_tests (steps : list transformation) (dt : display) (d : direction) (l : list test) : yres (list test_result) :=
  match l with
  | [] => YOk []
  | t :: r =>
      match check_test steps dt d t with
      | Ok a => ydo rs <- check_tests steps dt d r; YOk (a :: rs)
      | Panic => YPanic
      | OutOfFuel => YNoFuel
      end
  end.
(** test.rs:154-161: the tests of each table. *)
Fixpoint check_tables (tables : list table_source) (dt : display) (d : direction) (l : list test) : yres (list test_result) :=
  match tables with
  | [] => YOk []
  | t :: r =>
      ydo steps <- translation_table t d;
      ydo rs <- check_tests steps dt d l;
      ydo more <- check_tables r dt d l;
      YOk (rs ++ more)
  end.
Definition check_direction (s : option display_source) (tables : list table_source) (d : direction) (l : list test) : yres (list test_result) :=
  ydo dt <- display_table s d; check_tables tables dt d l.
(** test.rs:150-210 [TestMatrix::check]. *)
Definition check_matrix (s : option display_source) (tables : list table_source) (mode : test_mode) (l : list test) : yres (list test_result) :=
  match mode with
  | MForward => check_direction s tables Forward l
  | MBackward => if forward_only then YOk [] else check_direction s tables Backward l
  | MBothDirections =>
      ydo a <- check_direction s tables Forward l;
      ydo b <- if forward_only then YOk [] else check_direction s tables Backward (map reversed l);
      YOk (a ++ b)
  | _ => YOk []
  end.

(** yaml.rs:471-517 [yaml]; the local variables. *)
Record ystate := mk_ystate {
  ys_results : list test_result; ys_display : option display_source; ys_tables : list table_source;
  ys_mode : test_mode; ys_table : bool }.
Definition entry (s : ystate) : yp ystate := fun es =>
  let '(mk_ystate rs dp ts mo was) := s in
  ydo (v, es) <- y_scalar es;
  if str_eqb v (lit "display") then ydo (x, es) <- y_display es; YOk (mk_ystate rs (Some x) ts mo false, es)
  else if str_eqb v (lit "table") then
    ydo (x, es) <- y_table es; YOk (mk_ystate rs dp (if was then ts ++ [x] else [x]) mo true, es)
  else if str_eqb v (lit "flags") then ydo (x, es) <- y_flags es; YOk (mk_ystate rs dp ts x false, es)
  else if str_eqb v (lit "tests") then
    ydo (l, es) <- y_tests es;
    ydo more <- check_matrix dp ts mo l;
    YOk (mk_ystate (rs ++ more) dp ts mo false, es)
  else YErr (InvalidToken v).
Definition yaml (es : list yevent) : yres (list test_result) :=
  ydo (_, es) <- stream_start es;
  ydo (_, es) <- document_start es;
  ydo (_, es) <- mapping_start es;
  ydo (s, es) <- while_scalar entry (mk_ystate [] None [] MForward false) es;
  ydo (_, es) <- mapping_end es;
  ydo (_, es) <- document_end es;
  ydo (_, es) <- stream_end es;
  YOk (ys_results s).
End Run.

(** ** main.rs:299-360 [check_yaml] *)
(** main.rs:233-251 [YAMLTestResult]. *)
Record row := mk_row { w_file : str; w_tests : nat; w_successes : nat; w_failures : nat; w_expected : nat; w_unexpected : nat }.
Definition count (f : test_result -> bool) (l : list test_result) : nat := length (filter f l).
Definition row_of (file : str) (l : list test_result) : row :=
  mk_row file (length l) (count is_success l) (count is_failure l) (count is_expected_failure l) (count is_unexpected_success l).
(** main.rs:273-287 [update]. *)
Definition row_add (t w : row) : row :=
  mk_row (w_file t) (w_tests t + w_tests w) (w_successes t + w_successes w) (w_failures t + w_failures w)
         (w_expected t + w_expected w) (w_unexpected t + w_unexpected w).
(** [sort_by_key(|r| r.tests)], a stable sort: by insertion *)
Fixpoint insert_row (w : row) (l : list row) : list row :=
  match l with
  | [] => [w]
  | v :: r => if Nat.ltb (w_tests w) (w_tests v) then w :: l else v :: insert_row w r
  end.
Definition sort_rows (l : list row) : list row := fold_left (fun acc w => insert_row w acc) l [].
(** what is printed: results that are no success, errors of files (on stderr), the rows of
    the summary *)
Inductive printed := PResult (r : test_result) | PError (file : str) | PTable (rows : list row).
(** The files with their results, or none if reading or running failed. *)
Fixpoint report (summary : bool) (l : list (str * option (list test_result))) (total : row) (rows : list row) : list printed :=
  match l with
  | [] => if summary then [PTable (sort_rows rows ++ [mk_row (lit "Total") (w_tests total) (w_successes total)
                                                       (w_failures total) (w_expected total) (w_unexpected total)])] else []
  | (file, Some rs) :: r =>
      (if summary then [] else map PResult (filter (fun x => negb (is_success x)) rs)) ++
      report summary r (row_add total (row_of file rs)) (rows ++ [row_of file rs])
  | (file, None) :: r => PError file :: report summary r total rows
  end.
Definition check_yaml (summary : bool) (l : list (str * option (list test_result))) : list printed :=
  report summary l (mk_row [] 0 0 0 0 0) [].
