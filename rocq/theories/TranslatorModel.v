(** Model of the construction of a [Translator] (src/lib.rs:64-99) from table files or a
    table text. *)
From Coq Require Import List.
From Verif Require Import Base RuleModel TableModel HyphenationModel TrieModel LoopModel ParserModel IncludeModel PipelineModel.

(** lib.rs:40-46 [TranslationError]. *)
Inductive new_error := ParseFailed (errors : list table_error) | TranslationFailed (e : terr).
(** [Result<Translator, TranslationError>], or a panic. *)
Inductive new_result := Built (t : list transformation) | Refused (e : new_error) | Panicked.

Section New.
Variable ws : char -> bool.
Variable is_alphabetic : char -> bool.
Variable compat : bool.
Variable order1 order2 : list str -> list str.
Variable fs : file_system.
(** The library functions used in reading dictionaries, see HyphenationModel.v. *)
Variable trim : str -> str.
Variable is_utf8_name is_latin1_name : str -> bool.
Variable parse_usize : str -> option nat.

(** translator/table/primary.rs:1301-1305: [fs::read_to_string], [HyphenationTable::parse]. *)
Definition dictionary (path : str) : tres hyph :=
  match read_to_string fs path with
  | None => TErr HyphenationTableIoError
  | Some text => match hyph_parse trim is_utf8_name is_latin1_name parse_usize (lines text) with
                 | inr h => TOk h
                 | inl _ => TErr HyphenationTableParseError
                 end
  end.
(** [TranslationPipeline::compile(..)?]. *)
Definition compiled (rules : list anchored) (d : direction) : new_result :=
  match pipeline_compile is_alphabetic compat dictionary order1 order2 (map a_rule rules) d with
  | TOk t => Built t
  | TErr e => Refused (TranslationFailed e)
  | TPanic => Panicked
  end.
(** lib.rs:68-81 [new]; [None] when the includes were followed without end (never: C38_ends). *)
Definition translator_new (tables : list str) (d : direction) : option new_result :=
  match tables_expanded ws fs tables with
  | Some (inl rules) => Some (compiled rules d)
  | Some (inr errors) => Some (Refused (ParseFailed errors))
  | None => None
  end.
(** lib.rs:87-99 [from_table_source]. *)
Definition translator_from_source (table : str) (d : direction) : new_result :=
  match source_rules ws table with
  | inl rules => compiled rules d
  | inr errors => Refused (ParseFailed errors)
  end.
End New.
