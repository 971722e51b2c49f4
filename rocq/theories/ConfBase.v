(** The unit tests of the project, replayed on the model (evidence that the model is one of
    this code; the files Conf*.v are generated from /repo by tools/conformance.py).  Here: the
    library functions on the characters that occur in them, and how the tests call the model. *)
From Coq Require Import String.
From Verif Require Import Base BaseProofs RuleModel TranslationModel TableModel RegexpModel PatternModel OperandModel TrieModel BrailleModel
  HyphenationModel LoopModel CompileModel ConstraintModel IndicatorModel PipelineModel ParserModel IncludeModel TranslatorModel.

(** the standard library: ASCII, and the Greek and Latin letters of the tests *)
Definition cf_lower (c : char) : list char :=
  [if (N.leb 65 c && N.leb c 90 || N.leb 192 c && N.leb c 222)%bool then (c + 32)%N else c].
Definition cf_upper (c : char) : list char :=
  [if (N.leb 97 c && N.leb c 122 || N.leb 224 c && N.leb c 254)%bool then (c - 32)%N else c].
Definition cf_alpha (c : char) : bool :=
  (N.leb 65 c && N.leb c 90 || N.leb 97 c && N.leb c 122 || N.leb 192 c && N.leb c 0x24f || N.leb 0x386 c && N.leb c 0x3ff)%bool.
Definition cf_ws (c : char) : bool := mem c [9; 10; 11; 12; 13; 32; 133; 160]%N.
Definition cf_sort (l : list event) : res (list event) := event_sort (fun l => Ok (insertion_sort l)) l.
Definition cf_uppercase (s : str) : str := flat_map cf_upper s.
Definition cf_utf8 (s : str) : bool := str_eqb (cf_uppercase s) (lit "UTF-8").
Definition cf_latin1 (s : str) : bool := (str_eqb (cf_uppercase s) (lit "ISO8859-1") || str_eqb (cf_uppercase s) (lit "ISO-8859-1"))%bool.
Definition cf_usize (s : str) : option nat :=
  match trim cf_ws s with
  | [] => None
  | t => fold_left (fun n c => match n, to_digit10 c with Some k, Some d => Some (10 * k + d) | _, _ => None end) t (Some 0)
  end.
(** files by path *)
Definition cf_fs (files : list (str * str)) : file_system :=
  let find f := option_map snd (find (fun x => str_eqb f (fst x)) files) in
  {| find_file := fun f => match find f with Some _ => Some f | None => None end;
     canonicalize := fun p => Some p;
     read_to_string := find;
     is_dic := fun f => str_eqb (skipn (length f - 4) f) (lit ".dic") |}.
Definition cf_hyph (text : str) : hyph_error + hyph := hyph_parse (trim cf_ws) cf_utf8 cf_latin1 cf_usize (lines text).
Definition cf_dictionary (files : list (str * str)) (path : str) : tres hyph :=
  match read_to_string (cf_fs files) path with
  | Some text => match cf_hyph text with inr h => TOk h | inl _ => TPanic end
  | None => TPanic
  end.
(** [parse_rule]: a line that is a rule *)
Definition cf_rule (line : str) : option rule := match p_rule (tokens line) with Parsed r _ => Some r | _ => None end.
(** the rules on the lines, with dictionaries included *)
Definition cf_rules (files : list (str * str)) (ls : list str) : option (list rule) :=
  match inline_expanded cf_ws (cf_fs files) (flat_map (fun l => l ++ [10%N]) ls) with
  | Some (inl rs) => Some (map a_rule rs)
  | _ => None
  end.
Definition cf_all {A} (test : A -> str -> option str) (t : A) (io : list (str * str)) : bool :=
  forallb (fun p => match test t (fst p) with Some out => str_eqb out (snd p) | None => false end) io.
(** [PrimaryTable::compile] and [translate] *)
Definition cf_main (files : list (str * str)) (d : direction) (ls : list str) (io : list (str * str)) : bool :=
  match cf_rules files ls with
  | Some rules =>
      match (tdo x <- context_compile cf_alpha true rules;
             main_compile cf_alpha true (cf_dictionary files) (fun l => l) (fun l => l) d x rules) with
      | TOk m => cf_all (fun m s => match main_trace cf_lower cf_upper cf_sort m s [] with Ok out => Some (outputs out) | _ => None end) m io
      | _ => false
      end
  | None => false
  end.
(** [MultipassTable::compile] and [translate] *)
Definition cf_multipass (d : direction) (st : stage) (ls : list str) (io : list (str * str)) : bool :=
  match cf_rules [] ls with
  | Some rules =>
      match multipass_compile rules d st context_empty with
      | TOk ps => cf_all (fun ps s => match multipass_translate cf_lower ps st s with Ok out => Some out | _ => None end) ps io
      | _ => false
      end
  | None => false
  end.
(** [TranslationPipeline::compile] and [translate] *)
Definition cf_pipeline (d : direction) (ls : list str) (io : list (str * str)) : bool :=
  match cf_rules [] ls with
  | Some rules =>
      match pipeline_compile cf_alpha true (cf_dictionary []) (fun l => l) (fun l => l) rules d with
      | TOk t => cf_all (fun t s => match pipeline_translate_with cf_lower cf_upper cf_sort t s options_default with Ok out => Some out | _ => None end) t io
      | _ => false
      end
  | None => false
  end.
