(** Model of translator/pipeline.rs, translator/options.rs and the translating half of
    lib.rs: the passes of a table one after the other. *)
From Verif Require Import Base RuleModel TranslationModel TableModel PatternModel HyphenationModel TrieModel
  LoopModel CompileModel ConstraintModel IndicatorModel.

(** ** Options, translator/options.rs:14-75 *)
(** options.rs:15-24 [TranslationMode]. *)
Inductive mode := NoContractions | CompbrlAtCursor | DotsIo | CompbrlLeftCursor | UcBrl | NoUndefined | PartialTrans.
(** options.rs:27-46 [TranslationModes], [TranslationOptions]. *)
Record options := mk_options { o_modes : list mode; o_emphasis : list span; o_cursor : option nat }.
(** options.rs:39, 77-81 [Default]. *)
Definition options_default : options := mk_options [] [] None.
(** options.rs:49-62 [with_mode], [with_emphasis], [with_cursor_pos]. *)
Definition with_modes (o : options) (m : list mode) : options := mk_options m (o_emphasis o) (o_cursor o).
Definition with_emphasis (o : options) (e : list span) : options := mk_options (o_modes o) e (o_cursor o).
Definition with_cursor (o : options) (p : nat) : options := mk_options (o_modes o) (o_emphasis o) (Some p).

(** ** The pipeline *)
(** pipeline.rs:10-15 [Transformation]; the stage of a multipass table (multipass.rs:27-33)
    is kept with its patterns. *)
Inductive transformation :=
| TPre (st : stage) (ps : list cpat)
| TPrimary (m : main_table)
| TPost (st : stage) (ps : list cpat).

(** pipeline.rs:61, 79, 89, 99: [matches!(r.rule, Rule::..)]. *)
Definition is_correct (r : rule) : bool := match r with RCorrect _ _ _ => true | _ => false end.
Definition is_pass2 (r : rule) : bool := match r with RPass2 _ _ _ => true | _ => false end.
Definition is_pass3 (r : rule) : bool := match r with RPass3 _ _ _ => true | _ => false end.
Definition is_pass4 (r : rule) : bool := match r with RPass4 _ _ _ => true | _ => false end.

Section Pipeline.
Variable is_alphabetic : char -> bool.
Variable lower upper : char -> list char.
Variable long_sort : list event -> res (list event).
Variable compat : bool.
Variable read_dictionary : str -> tres hyph.
Variable order1 order2 : list str -> list str.

(** pipeline.rs:59-67 and the same four times: the pass of the rules chosen by [which], if
    there are any. *)
Definition multipass_step_of (which : rule -> bool) (make : stage -> list cpat -> transformation)
           (st : stage) (d : direction) (ctx : context) (rules : list rule) : tres (list transformation) :=
  match filter which rules with
  | [] => TOk []
  | l => tdo ps <- multipass_compile l d st ctx; TOk [make st ps]
  end.
(** pipeline.rs:49-114 [compile]. *)
Definition pipeline_compile (all_rules : list rule) (d : direction) : tres (list transformation) :=
  tdo ctx <- context_compile is_alphabetic compat all_rules;
  let rules := filter (is_direction d) all_rules in
  tdo s1 <- multipass_step_of is_correct TPre Pre d ctx rules;
  tdo context <- context_compile is_alphabetic compat rules;
  tdo m <- main_compile is_alphabetic compat read_dictionary order1 order2 d context rules;
  tdo s2 <- multipass_step_of is_pass2 TPost Post1 d ctx rules;
  tdo s3 <- multipass_step_of is_pass3 TPost Post2 d ctx rules;
  tdo s4 <- multipass_step_of is_pass4 TPost Post3 d ctx rules;
  let steps := s1 ++ [TPrimary m] ++ s2 ++ s3 ++ s4 in
  TOk (match d with Forward => steps | Backward => rev steps end).

(** pipeline.rs:18-24 [Transformation::trace]. *)
Definition transformation_trace (s : transformation) (input : str) (o : options) : res (list resolved) :=
  match s with
  | TPre st ps => multipass_trace lower ps st input
  | TPrimary m => main_trace lower upper long_sort m input (o_emphasis o)
  | TPost st ps => multipass_trace lower ps st input
  end.
(** pipeline.rs:26-32 [Transformation::translate]. *)
Definition transformation_translate (s : transformation) (input : str) : res str :=
  match s with
  | TPre st ps => multipass_translate lower ps st input
  | TPrimary m => main_translate lower upper long_sort m input (o_emphasis options_default)
  | TPost st ps => multipass_translate lower ps st input
  end.
(** pipeline.rs:34-40 [Transformation::translate_with_options]. *)
Definition transformation_translate_with (s : transformation) (input : str) (o : options) : res str :=
  match s with
  | TPre st ps => multipass_translate lower ps st input
  | TPrimary m => main_translate lower upper long_sort m input (o_emphasis o)
  | TPost st ps => multipass_translate lower ps st input
  end.

(** pipeline.rs:120-133 [trace_with_options]. *)
Fixpoint pipeline_trace_with (steps : list transformation) (input : str) (o : options) : res (list (list resolved)) :=
  match steps with
  | [] => Ok []
  | s :: rest =>
      do translations <- transformation_trace s input o;
      do result <- pipeline_trace_with rest (outputs translations) o;
      Ok (translations :: result)
  end.
(** pipeline.rs:116-118 [trace]. *)
Definition pipeline_trace (steps : list transformation) (input : str) : res (list (list resolved)) :=
  pipeline_trace_with steps input options_default.
(** pipeline.rs:135-141 [translate]. *)
Fixpoint pipeline_translate (steps : list transformation) (input : str) : res str :=
  match steps with
  | [] => Ok input
  | s :: rest => do result <- transformation_translate s input; pipeline_translate rest result
  end.
(** pipeline.rs:143-149 [translate_with_options]. *)
Fixpoint pipeline_translate_with (steps : list transformation) (input : str) (o : options) : res str :=
  match steps with
  | [] => Ok input
  | s :: rest => do result <- transformation_translate_with s input o; pipeline_translate_with rest result o
  end.

(** ** lib.rs *)
(** lib.rs:51-59 [TranslationResult]; [SpacingInfo] has no fields. *)
Record translation_result := mk_result {
  tr_output : str; tr_emphasis : option (list span); tr_spacing : option (list unit);
  tr_output_positions : option (list nat); tr_input_positions : option (list nat); tr_cursor : option nat }.
(** lib.rs:140-149 [Translator::translate_with_options]. *)
Definition translator_translate_with (t : list transformation) (input : str) (o : options) : res translation_result :=
  do out <- pipeline_translate_with t input o; Ok (mk_result out None None None None None).
(** lib.rs:134-137 [Translator::translate]. *)
Definition translator_translate (t : list transformation) (input : str) : res str :=
  do r <- translator_translate_with t input options_default; Ok (tr_output r).
End Pipeline.
