(** Which rule of a table gives which entries of the compiled main pass: for each opcode the
    texts, dots and boundary conditions, in the order of the table. *)
From Verif Require Import Base RuleModel TranslationModel TableModel RegexpModel PatternModel
  TrieModel HyphenationModel LoopModel CompileModel.

Section Spec.
Variable d : direction.
Variable x : context.
Variable rules : list rule.

(** decpoint and hyphen are defined before all other characters *)
Definition first_characters (r : rule) : list (char * str) :=
  match r with
  | RDecpoint c dots | RHyphen c dots _ => [(c, dots)]
  | _ => []
  end.
(** a digit that also has a litdigit rule is translated by the latter *)
Definition other_characters (r : rule) : list (char * str) :=
  match r with
  | RSpace c dots _ | RPunctuation c dots _ | RLetter c dots _ | RLowercase c dots _
  | RUppercase c dots _ | RSign c dots _ | RMath c dots _ | RLitdigit c dots _ => [(c, dots)]
  | RDigit c dots _ => if mem c (litdigit_chars d rules) then [] else [(c, dots)]
  | RBase _ derived base => match defs_get (x_defs x) base with Some t => [(derived, t)] | None => [] end
  | _ => []
  end.
Definition character_entries (chars : rule -> list (char * str)) (r : rule) : list ins_args :=
  map (fun cd => mk_ins [fst cd] (snd cd) None None (rule_precedence r) [] Main (Some r)) (chars r).
(** backward, the indicators are read and give nothing *)
Definition indicator_entries (r : rule) : list ins_args :=
  match r with
  | RNumsign dots | RNonumsign dots _ | RCapsletter dots _ | RBegcapsword dots _ | REndcapsword dots _ =>
      if (is_backward d && negb (is_letter_dots d rules dots))%bool
      then [mk_ins [] dots None None (rule_precedence r) [] Main (Some r)] else []
  | _ => []
  end.
(** the rules with a text *)
Definition word_entries (r : rule) : list ins_args :=
  match word_insertions x r with TOk l => l | _ => [] end.

Definition backward_only (l : list ins_args) : list ins_args := if is_backward d then l else [].
Definition main_entries_of (r : rule) : list ins_args :=
  backward_only (character_entries other_characters r) ++ indicator_entries r ++
  (if is_nocross r then [] else word_entries r).
Definition main_entries : list ins_args :=
  flat_map (fun r => backward_only (character_entries first_characters r)) rules ++ flat_map main_entries_of rules.
Definition nocross_entries : list ins_args :=
  flat_map (fun r => if is_nocross r then word_entries r else []) rules.
Definition comp6_entries_of (r : rule) : list ins_args :=
  match r with
  | RComp6 chars b => match dots_of x b chars with TOk t => [ins r chars t None None []] | _ => [] end
  | _ => []
  end.
Definition comp6_entries : list ins_args := flat_map comp6_entries_of rules.

(** forward, characters without a rule are translated one by one *)
Definition char_pieces (chars : rule -> list (char * str)) (r : rule) : list (char * resolved) :=
  map (fun cd => (fst cd, resolved_new [fst cd] (snd cd) 1 Main (Some r))) (chars r).
Definition character_table : list (char * resolved) :=
  if is_backward d then []
  else flat_map (char_pieces first_characters) rules ++ flat_map (char_pieces other_characters) rules.
(** the cells of digits that are also those of letters *)
Definition digit_entries (r : rule) : list (char * resolved) :=
  match r with
  | RDigit c dots _ | RLitdigit c dots _ =>
      match dots with
      | [cell] => if (is_backward d && is_letter_dots d rules dots)%bool
                  then [(cell, resolved_new dots [c] 1 Main (Some r))] else []
      | _ => []
      end
  | _ => []
  end.
Definition digit_table : list (char * resolved) := rev (flat_map digit_entries rules).
Definition match_entries (r : rule) : list cpat :=
  match r with
  | RMatch pre chars post b _ =>
      match dots_of x b chars with
      | TOk t => match match_insert (x_chars x) pre chars post t r with TOk p => [p] | _ => [] end
      | _ => []
      end
  | _ => []
  end.
Definition context_entries (r : rule) : list cpat :=
  match r with
  | RContext test action _ => match context_insert x test action r Main with TOk p => [p] | _ => [] end
  | _ => []
  end.
Definition undefined_dots : option str :=
  fold_left (fun u r => match r with RUndefined dots => Some dots | _ => u end) rules None.
(** the first (default build) or the last entry for a character counts *)
Definition character_lookup (compat : bool) (c : char) : option resolved :=
  assoc c (if compat then character_table else rev character_table).
End Spec.
