(** Model of [PrimaryTable::compile], src/translator/table/primary.rs:411-1390: which rule
    of a table goes where.  The builders of the indicators and constrainers are separate
    folds over the same rules (IndicatorModel.v, ConstraintModel.v): none of them can fail
    and the parts modelled here do not depend on them. *)
From Verif Require Import Base RuleModel TranslationModel TableModel RegexpModel PatternModel
  TrieModel HyphenationModel LoopModel.

(** primary.rs:147-170 [PrimaryTableBuilder], the part for the translation rules. *)
Record builder := mk_builder {
  b_undefined : option str; b_chars : list (char * resolved);
  b_trie : node; b_comp6 : node; b_nocross : node;
  b_match : list cpat; b_context : list cpat; b_digits : list (char * resolved) }.
Definition builder_new : builder := mk_builder None [] node_empty node_empty node_empty [] [] [].

Definition set_undefined (b : builder) (u : option str) : builder :=
  mk_builder u (b_chars b) (b_trie b) (b_comp6 b) (b_nocross b) (b_match b) (b_context b) (b_digits b).
Definition set_chars (b : builder) (c : list (char * resolved)) : builder :=
  mk_builder (b_undefined b) c (b_trie b) (b_comp6 b) (b_nocross b) (b_match b) (b_context b) (b_digits b).
Definition set_trie (b : builder) (n : node) : builder :=
  mk_builder (b_undefined b) (b_chars b) n (b_comp6 b) (b_nocross b) (b_match b) (b_context b) (b_digits b).
Definition set_comp6 (b : builder) (n : node) : builder :=
  mk_builder (b_undefined b) (b_chars b) (b_trie b) n (b_nocross b) (b_match b) (b_context b) (b_digits b).
Definition set_nocross (b : builder) (n : node) : builder :=
  mk_builder (b_undefined b) (b_chars b) (b_trie b) (b_comp6 b) n (b_match b) (b_context b) (b_digits b).
Definition set_match (b : builder) (l : list cpat) : builder :=
  mk_builder (b_undefined b) (b_chars b) (b_trie b) (b_comp6 b) (b_nocross b) l (b_context b) (b_digits b).
Definition set_context (b : builder) (l : list cpat) : builder :=
  mk_builder (b_undefined b) (b_chars b) (b_trie b) (b_comp6 b) (b_nocross b) (b_match b) l (b_digits b).
Definition set_digits (b : builder) (l : list (char * resolved)) : builder :=
  mk_builder (b_undefined b) (b_chars b) (b_trie b) (b_comp6 b) (b_nocross b) (b_match b) (b_context b) l.

Definition is_backward (d : direction) : bool := match d with Backward => true | Forward => false end.

(** The boundaries used below. *)
Definition SP : list class := [CSpace; CPunctuation].
Definition word_start := Some (TrStart SP).
Definition word_end := Some (TrEnd SP).
Definition after_letter := Some (TrStart [CLetter]).
Definition before_letter := Some (TrEnd [CLetter]).

Section Compile.
Variable compat : bool.
(** [fs::read_to_string] of a dictionary, then [HyphenationTable::parse] (HyphenationModel.v);
    fails with one of the two hyphenation errors. *)
Variable read_dictionary : str -> tres hyph.
Variable d : direction.
Variable x : context.
Variable rules : list rule.

(** primary.rs:422-425. *)
Definition trie_ctx : classes := match d with Forward => x_chars x | Backward => x_dots x end.

(** primary.rs:442-455. *)
Definition litdigit_chars : list char :=
  match d with
  | Forward => flat_map (fun r => match r with RLitdigit c _ _ => [c] | _ => [] end) rules
  | Backward => []
  end.
(** primary.rs:463-475. *)
Definition letter_dots : list str :=
  match d with
  | Forward => []
  | Backward => flat_map (fun r => match r with
                                   | RLetter _ dots _ | RLowercase _ dots _ | RUppercase _ dots _ => [dots]
                                   | _ => []
                                   end) rules
  end.
Definition is_letter_dots (dots : str) : bool := existsb (str_eqb dots) letter_dots.

(** primary.rs:386-409 [resolve_class_constraints]. *)
Definition class_constraints (w : list with_class) : list class_constraint :=
  flat_map (fun wc => match wc with
                      | WBefore name => match cls_get (x_chars x) (class_from name) with
                                        | Some _ => [KEnd (class_from name)]
                                        | None => []
                                        end
                      | WAfter name => match cls_get (x_chars x) (class_from name) with
                                       | Some _ => [KStart (class_from name)]
                                       | None => []
                                       end
                      end) w.

(** The arguments of [Trie::insert] that all rules share. *)
Definition ins (r : rule) (chars dots : str) (before after : option transition)
           (ks : list class_constraint) : ins_args :=
  mk_ins chars dots before after (rule_precedence r) ks Main (Some r).
Definition dots_of (b : braille) (chars : str) : tres str := braille_to_unicode (x_defs x) b chars.

(** primary.rs:753-1270: the insertions into the trie chosen by [get_trie_mut]. *)
Definition word_insertions (r : rule) : tres (list ins_args) :=
  match r with
  | RContraction chars =>
      tdo t <- dots_of Implicit chars; TOk [ins r chars t word_start word_end []]
  | RAlways chars b _ w =>
      tdo t <- dots_of b chars; TOk [ins r chars t None None (class_constraints w)]
  | RSyllable chars b => tdo t <- dots_of b chars; TOk [ins r chars t None None []]
  | RLargesign chars dots => TOk [ins r chars dots None None []]
  | RWord chars b _ w =>
      tdo t <- dots_of b chars; TOk [ins r chars t word_start word_end (class_constraints w)]
  | RBegword chars b _ w =>
      tdo t <- dots_of b chars; TOk [ins r chars t word_start before_letter (class_constraints w)]
  | RMidword chars b _ w =>
      tdo t <- dots_of b chars; TOk [ins r chars t after_letter before_letter (class_constraints w)]
  | RPartword chars b _ w =>
      tdo t <- dots_of b chars;
      TOk [ins r chars t after_letter None (class_constraints w);
           ins r chars t None before_letter (class_constraints w)]
  | RMidendword chars b _ w =>
      tdo t <- dots_of b chars;
      TOk [ins r chars t after_letter (Some (TrEnd [CLetter; CSpace; CPunctuation])) (class_constraints w)]
  | REndword chars b _ w =>
      tdo t <- dots_of b chars; TOk [ins r chars t after_letter word_end (class_constraints w)]
  | RPrfword chars b _ w =>
      tdo t <- dots_of b chars;
      TOk [ins r chars t word_start word_end (class_constraints w);
           ins r chars t after_letter word_end (class_constraints w)]
  | RSufword chars b _ w =>
      tdo t <- dots_of b chars;
      TOk [ins r chars t word_start word_end (class_constraints w);
           ins r chars t word_start before_letter (class_constraints w)]
  | RBegmidword chars b _ w =>
      tdo t <- dots_of b chars;
      TOk [ins r chars t (Some (TrStart [CLetter; CSpace; CPunctuation])) before_letter (class_constraints w)]
  | RJoinword chars dots => TOk [ins r chars dots word_start word_end []]
  | RLowword chars dots _ => TOk [ins r chars dots word_start word_end []]
  | RBegnum chars dots _ => TOk [ins r chars dots word_start (Some (TrEnd [CDigit])) []]
  | RMidnum chars dots _ => TOk [ins r chars dots (Some (TrStart [CDigit])) (Some (TrEnd [CDigit])) []]
  | REndnum chars b _ =>
      tdo t <- dots_of b chars; TOk [ins r chars t (Some (TrStart [CDigit])) None []]
  | RPrepunc chars dots _ | RPostpunc chars dots _ =>
      TOk (if forallb (cls_has (x_chars x) CPunctuation) chars then [ins r chars dots None None []] else [])
  | _ => TOk []
  end.

(** Insertion into the main trie. *)
Definition insert_main (b : builder) (a : ins_args) : tres builder :=
  tdo n <- trie_insert compat trie_ctx d (b_trie b) a; TOk (set_trie b n).
(** primary.rs:200-206 [get_trie_mut]. *)
Definition insert_rule (r : rule) (b : builder) (a : ins_args) : tres builder :=
  if is_nocross r
  then tdo n <- trie_insert compat trie_ctx d (b_nocross b) a; TOk (set_nocross b n)
  else insert_main b a.
Fixpoint insert_rules (r : rule) (b : builder) (l : list ins_args) : tres builder :=
  match l with
  | [] => TOk b
  | a :: rest => tdo b' <- insert_rule r b a; insert_rules r b' rest
  end.

(** primary.rs:99-107 [CharacterTranslation::insert]. *)
Definition chars_insert (m : list (char * resolved)) (c : char) (t : resolved) : list (char * resolved) :=
  if compat then match assoc c m with Some _ => m | None => (c, t) :: m end else (c, t) :: m.
(** primary.rs:208-236 [insert_character]. *)
Definition insert_character (r : rule) (c : char) (dots : str) (b : builder) : tres builder :=
  match d with
  | Forward => TOk (set_chars b (chars_insert (b_chars b) c (resolved_new [c] dots 1 Main (Some r))))
  | Backward => insert_main b (mk_ins [c] dots None None (rule_precedence r) [] Main (Some r))
  end.
(** primary.rs:242-281 [insert_backward_indicator], [backward_indicator_dots_available]. *)
Definition backward_indicator (r : rule) (dots : str) (b : builder) : tres builder :=
  if (is_backward d && negb (is_letter_dots dots))%bool
  then insert_main b (mk_ins [] dots None None (rule_precedence r) [] Main (Some r))
  else TOk b.
(** primary.rs:290-311 [register_backward_digit_override] and its callers; the dots are a
    string with one character per cell. *)
Definition digit_override (r : rule) (c : char) (dots : str) (b : builder) : builder :=
  match d, dots with
  | Backward, [cell] =>
      if is_letter_dots dots
      then set_digits b ((cell, resolved_new dots [c] 1 Main (Some r)) :: b_digits b)
      else b
  | _, _ => b
  end.

(** primary.rs:477-499: decpoint and hyphen first. *)
Definition compile_step1 (b : builder) (r : rule) : tres builder :=
  match r with
  | RDecpoint c dots => insert_character r c dots b
  | RHyphen c dots _ => insert_character r c dots b
  | _ => TOk b
  end.
(** primary.rs:500-1309: the other rules. *)
Definition compile_step2 (b : builder) (r : rule) : tres builder :=
  match r with
  | RUndefined dots => TOk (set_undefined b (Some dots))
  | RSpace c dots _ | RPunctuation c dots _ | RLetter c dots _ | RLowercase c dots _
  | RUppercase c dots _ | RSign c dots _ | RMath c dots _ => insert_character r c dots b
  | RDigit c dots _ =>
      tdo b <- (if mem c litdigit_chars then TOk b else insert_character r c dots b);
      TOk (digit_override r c dots b)
  | RLitdigit c dots _ =>
      tdo b <- insert_character r c dots b; TOk (digit_override r c dots b)
  | RNumsign dots => backward_indicator r dots b
  | RNonumsign dots _ => backward_indicator r dots b
  | RCapsletter dots _ => backward_indicator r dots b
  | RBegcapsword dots _ => backward_indicator r dots b
  | REndcapsword dots _ => backward_indicator r dots b
  | RBase _ derived base =>
      match defs_get (x_defs x) base with
      | Some t => insert_character r derived t b
      | None => if compat then TOk b else TErr (BaseCharacterNotDefined base derived)
      end
  | RComp6 chars dots =>
      tdo t <- dots_of dots chars;
      tdo n <- trie_insert compat trie_ctx d (b_comp6 b) (ins r chars t None None []);
      TOk (set_comp6 b n)
  | RMatch pre chars post dots _ =>
      tdo t <- dots_of dots chars;
      tdo p <- match_insert (x_chars x) pre chars post t r;
      TOk (set_match b (b_match b ++ [p]))
  | RContext test action _ =>
      tdo p <- context_insert x test action r Main;
      TOk (set_context b (b_context b ++ [p]))
  | RIncludeHyphenation path =>
      tdo _ <- read_dictionary path; TOk b
  | _ => tdo l <- word_insertions r; insert_rules r b l
  end.
Fixpoint compile_fold (step : builder -> rule -> tres builder) (b : builder) (l : list rule) : tres builder :=
  match l with
  | [] => TOk b
  | r :: rest => tdo b' <- step b r; compile_fold step b' rest
  end.
(** primary.rs:411-1390 [compile] and 313-382 [build]. *)
Definition primary_compile : tres ptable :=
  tdo b <- compile_fold compile_step1 builder_new rules;
  tdo b <- compile_fold compile_step2 b rules;
  TOk (mk_ptable (b_undefined b) (x_defs x) (b_chars b) (b_trie b) (b_comp6 b) (b_nocross b)
                 (b_match b) (b_context b) d (b_digits b)).
End Compile.
