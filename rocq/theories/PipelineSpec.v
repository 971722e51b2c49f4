(** The passes of a table: which there are, in which order, and what each is made of. *)
From Verif Require Import Base RuleModel TranslationModel TableModel PatternModel HyphenationModel TrieModel
  LoopModel CompileModel ConstraintModel IndicatorModel PipelineModel MainPass.

Inductive pass := CorrectPass | MainPass | Pass2 | Pass3 | Pass4.
(** the order of the passes *)
Definition pass_order (d : direction) : list pass :=
  match d with
  | Forward => [CorrectPass; MainPass; Pass2; Pass3; Pass4]
  | Backward => [Pass4; Pass3; Pass2; MainPass; CorrectPass]
  end.
(** the opcode of a pass *)
Definition opcode_of (k : pass) (r : rule) : bool :=
  match k, r with
  | CorrectPass, RCorrect _ _ _ | Pass2, RPass2 _ _ _ | Pass3, RPass3 _ _ _ | Pass4, RPass4 _ _ _ => true
  | _, _ => false
  end.
(** marks of a rule *)
Definition marked_nofor (r : rule) : Prop := exists k, rule_constraints r = Some k /\ nofor k = true.
Definition marked_noback (r : rule) : Prop := exists k, rule_constraints r = Some k /\ noback k = true.
(** a rule is meant for a direction if it is not marked for the other *)
Definition meant_for (d : direction) (r : rule) : Prop :=
  match d with Forward => ~ marked_nofor r | Backward => ~ marked_noback r end.
(** no rule is marked both ways (the parser accepts at most one of the two marks) *)
Definition marked_once (rules : list rule) : Prop := forall r, In r rules -> ~ (marked_nofor r /\ marked_noback r).
Definition stage_of (k : pass) : stage :=
  match k with CorrectPass => Pre | MainPass => Main | Pass2 => Post1 | Pass3 => Post2 | Pass4 => Post3 end.
Definition kind (s : transformation) : pass :=
  match s with
  | TPre _ _ => CorrectPass
  | TPrimary _ => MainPass
  | TPost Post2 _ => Pass3
  | TPost Post3 _ => Pass4
  | TPost _ _ => Pass2
  end.

Section Built.
Variable is_alphabetic : char -> bool.
Variable compat : bool.
Variable read_dictionary : str -> tres hyph.
Notation context_of := (context_compile is_alphabetic compat).
(** A pass made of the rules meant for the direction: the main pass of all of them, with
    the classes and swaps they define; the others of the rules with their opcode, in
    order, with the classes and swaps of the whole table. *)
Definition pass_built (d : direction) (table : list rule) (s : transformation) : Prop :=
  let rules := filter (is_direction d) table in
  match s with
  | TPrimary m => exists x, context_of rules = TOk x /\ main_built is_alphabetic compat read_dictionary d x rules m
  | TPre st ps | TPost st ps => exists x, context_of table = TOk x /\ st = stage_of (kind s) /\
      multipass_compile (filter (opcode_of (kind s)) rules) d st x = TOk ps
  end.
End Built.
