(** How the operands of context, correct, pass2-4 and match rules are written: the tests,
    actions and patterns a text stands for.  Independent of the parsers. *)
From Coq Require Import Strings.String.
From Coq Require Import List.
From Verif Require Import Base RuleModel BrailleModel BrailleProofs UnescapeSpec.

(** ** Parts *)

(** a word that stands for one cell, for cells *)
Definition spells_cell (t : str) (u : char) : Prop :=
  exists ds, t <> [] /\ Forall2 denotes t ds /\ to_unicode (cell_of ds) = Ok u.
Definition spells_cells (t : str) (us : str) : Prop :=
  exists parts, parts <> [] /\ t = joins 45%N parts /\ Forall2 spells_cell parts us.
(** decimal digits *)
Definition digit10 (c : char) : Prop := (48 <= c /\ c <= 57)%N.
Definition decimal (t : str) (n : N) : Prop :=
  t <> [] /\ Forall digit10 t /\ n = fold_left (fun v c => 10 * v + (c - 48))%N t 0%N.
Definition latin (c : char) : Prop := (65 <= c /\ c <= 90 \/ 97 <= c /\ c <= 122)%N.

(** the first character of a text *)
Definition begins (P : char -> Prop) (s : str) : Prop := exists c r, s = c :: r /\ P c.
(** the character [c] *)
Definition ch (c : String.string) : char := hd 0%N (lit c).
Arguments ch c%string.
Definition is (c : String.string) : char -> Prop := eq (ch c).
Arguments is c%string.

(** A number up to 255; [rest], which follows, does not go on with a digit. *)
Definition number (t : str) (n : N) (rest : str) : Prop :=
  decimal t n /\ (n <= 255)%N /\ ~ begins digit10 rest.

(** What is between the quotes of a string: two escapes, numbers of characters, and any
    other backslash stands for itself. *)
Inductive quoted_text : str -> str -> Prop :=
| q_nil : quoted_text [] []
| q_plain c s t : c <> ch """" -> c <> ch "\" -> quoted_text s t -> quoted_text (c :: s) (c :: t)
| q_space s t : quoted_text s t -> quoted_text (lit "\s" ++ s) (lit " " ++ t)
| q_quote s t : quoted_text s t -> quoted_text (lit "\""" ++ s) (lit """" ++ t)
| q_x h v s t : length h = 4 -> Number16 true h v -> scalar v -> quoted_text s t ->
    quoted_text (lit "\x" ++ h ++ s) (v :: t)
| q_y h v s t : length h = 5 -> Number16 true h v -> scalar v -> quoted_text s t ->
    quoted_text (lit "\y" ++ h ++ s) (v :: t)
| q_backslash e s t : ~ In e (lit "s""xy") -> quoted_text (e :: s) t ->
    quoted_text (lit "\" ++ e :: s) (lit "\" ++ t).

(** ** Tests *)

(** how often: nothing, [.], [n] or [n-m] *)
Inductive quantifier_text : str -> option quantifier -> str -> Prop :=
| qt_once rest : ~ begins (fun c => is "." c \/ digit10 c) rest -> quantifier_text [] None rest
| qt_more rest : quantifier_text (lit ".") (Some QOneOrMore) rest
| qt_number t n rest : number t n rest -> ~ begins (is "-") rest -> quantifier_text t (Some (QNumber n)) rest
| qt_range t n t' m rest : number t n [] -> number t' m rest -> (n < m)%N ->
    quantifier_text (t ++ lit "-" ++ t') (Some (QRange n m)) rest.

(** the letters for attributes *)
Definition test_letter (c : char) (a : attribute) : Prop :=
  In (c, a)
    [(ch "a", AAny); (ch "d", AClass CDigit); (ch "D", AClass CLitdigit); (ch "l", AClass CLetter);
     (ch "m", AClass CMath); (ch "p", AClass CPunctuation); (ch "S", AClass CSign);
     (ch "s", AClass CSpace); (ch "U", AClass CUppercase); (ch "u", AClass CLowercase);
     (ch "w", AByOrder 1); (ch "x", AByOrder 2); (ch "y", AByOrder 3); (ch "z", AByOrder 4)].

Inductive operator_text : str -> operator -> str -> Prop :=
| op_eq rest : operator_text (lit "=") OpEq rest
| op_lt rest : ~ begins (is "=") rest -> operator_text (lit "<") OpLt rest
| op_gt rest : ~ begins (is "=") rest -> operator_text (lit ">") OpGt rest
| op_le rest : operator_text (lit "<=") OpLtEq rest
| op_ge rest : operator_text (lit ">=") OpGtEq rest.

Definition negatable_test (t : test_instr) : Prop :=
  match t with TNegate _ | TReplace _ => False | _ => True end.

(** [test_text s t rest]: [s], followed by [rest], is one way to write the test [t]. *)
Inductive test_text : str -> test_instr -> str -> Prop :=
| tt_back rest : ~ begins digit10 rest -> test_text (lit "_") (TLookback 1) rest
| tt_back_by s n rest : number s n rest -> test_text (lit "_" ++ s) (TLookback n) rest
| tt_variable s v s' op s'' x rest :
    number s v [] -> operator_text s' op (s'' ++ rest) -> number s'' x rest ->
    test_text (lit "#" ++ s ++ s' ++ s'') (TVariable v op x) rest
| tt_string s t rest : quoted_text s t -> test_text (lit """" ++ s ++ lit """") (TString t) rest
| tt_dots s cells rest : spells_cells s cells -> ~ begins (fun c => is "-" c \/ exists d, denotes c d) rest ->
    test_text (lit "@" ++ s) (TDots cells) rest
| tt_attributes s l s' q rest : s <> [] -> Forall2 test_letter s l -> quantifier_text s' q rest ->
    ~ begins (fun c => exists a, test_letter c a) (s' ++ rest) ->
    test_text (lit "$" ++ s ++ s') (TAttributes l q) rest
| tt_class s s' q rest : s <> [] -> Forall latin s -> quantifier_text s' q rest ->
    ~ begins latin (s' ++ rest) -> test_text (lit "%" ++ s ++ s') (TClass s q) rest
| tt_class_number c rest : (ch "1" <= c <= ch "7")%N -> test_text (lit "%" ++ [c]) (TClass [c] None) rest
| tt_not s t rest : test_text s t rest -> negatable_test t -> test_text (lit "!" ++ s) (TNegate t) rest
| tt_replace s l rest : tests_text s l (lit "]" ++ rest) -> test_text (lit "[" ++ s ++ lit "]") (TReplace l) rest
| tt_beginning rest : test_text (lit "`") TAtBeginning rest
| tt_end rest : test_text (lit "~") TAtEnd rest
with tests_text : str -> list test_instr -> str -> Prop :=
| ts_none rest : tests_text [] [] rest
| ts_more s t s' l rest : test_text s t (s' ++ rest) -> tests_text s' l rest ->
    tests_text (s ++ s') (t :: l) rest.

(** ** Actions *)
Inductive action_text : str -> action_instr -> str -> Prop :=
| at_string s t rest : quoted_text s t -> action_text (lit """" ++ s ++ lit """") (ActString t) rest
| at_dots s cells rest : spells_cells s cells -> ~ begins (fun c => is "-" c \/ exists d, denotes c d) rest ->
    action_text (lit "@" ++ s) (ActDots cells) rest
| at_replace rest : action_text (lit "*") ActReplace rest
| at_ignore rest : action_text (lit "?") ActIgnore rest
| at_set s v s' x rest : number s v [] -> number s' x rest ->
    action_text (lit "#" ++ s ++ lit "=" ++ s') (ActAssignment v x) rest
| at_swap s rest : s <> [] -> Forall latin s -> ~ begins latin rest ->
    action_text (lit "%" ++ s) (ActSwapClass s) rest.
Inductive actions_text : str -> list action_instr -> str -> Prop :=
| as_none rest : actions_text [] [] rest
| as_more s a s' l rest : action_text s a (s' ++ rest) -> actions_text s' l rest ->
    actions_text (s ++ s') (a :: l) rest.

(** ** Patterns of match rules *)
Definition special : str := lit ".*%^$![]()\?+|".
Definition match_letter (c : char) (a : attribute) : Prop :=
  In (c, a)
    [(ch "_", AClass CSpace); (ch "#", AClass CDigit); (ch "a", AClass CLetter);
     (ch "u", AClass CUppercase); (ch "l", AClass CLowercase); (ch ".", AClass CPunctuation);
     (ch "$", AClass CSign); (ch "~", AClass CSeqdelimiter); (ch "<", AClass CSeqbeforechars);
     (ch ">", AClass CSeqafterchars); (ch "^", ABoundary)] \/
  (ch "0" <= c <= ch "7")%N /\ a = AClass (CUser [c]).

(** between the brackets of a set *)
Inductive set_text : str -> list char -> Prop :=
| set_nil : set_text [] []
| set_plain c s l : c <> ch "]" -> c <> ch "\" -> set_text s l -> set_text (c :: s) (c :: l)
| set_escaped c s l : In c (lit "]()") -> set_text s l -> set_text (lit "\" ++ c :: s) (c :: l).

(** One of the attributes [l], of which [^] is the boundary on the side of the pattern. *)
Inductive one_of (sd : side) : list attribute -> pattern -> Prop :=
| one_attributes l : ~ In ABoundary l -> one_of sd l (PAttributes l)
| one_boundary l : l <> [] -> (forall a, In a l -> a = ABoundary) -> one_of sd l (PBoundary sd)
| one_either l others : In ABoundary l -> others <> [] ->
    others = filter (fun a => match a with ABoundary => false | _ => true end) l ->
    one_of sd l (PAttributesOrBoundary others sd).

Definition negatable_pattern (p : pattern) : Prop := match p with PNegate _ => False | _ => True end.

Inductive inner_text (sd : side) : str -> pattern -> str -> Prop :=
| in_any rest : inner_text sd (lit ".") PAny rest
| in_start rest : inner_text sd (lit "^") (PBoundary sd) rest
| in_end rest : inner_text sd (lit "$") (PBoundary sd) rest
| in_attribute c a p rest : match_letter c a -> one_of sd [a] p -> inner_text sd (lit "%" ++ [c]) p rest
| in_attributes s l p rest : s <> [] -> Forall2 match_letter s l -> one_of sd l p ->
    inner_text sd (lit "%[" ++ s ++ lit "]") p rest
| in_set s l rest : l <> [] -> set_text s l -> inner_text sd (lit "[" ++ s ++ lit "]") (PSet l) rest
| in_group s l rest : alternatives_text sd s l (lit ")" ++ rest) ->
    inner_text sd (lit "(" ++ s ++ lit ")") (PGroup l) rest
| in_not s p rest : pattern_text sd s p rest -> negatable_pattern p ->
    inner_text sd (lit "!" ++ s) (PNegate p) rest
| in_characters s rest : s <> [] -> Forall (fun c => ~ In c special) s ->
    ~ begins (fun c => ~ In c special) rest -> inner_text sd s (PCharacters s) rest
with pattern_text (sd : side) : str -> pattern -> str -> Prop :=
| pt_once s p rest : inner_text sd s p rest -> ~ begins (fun c => In c (lit "?*+")) rest ->
    pattern_text sd s p rest
| pt_optional s p rest : inner_text sd s p (lit "?" ++ rest) -> pattern_text sd (s ++ lit "?") (POptional p) rest
| pt_many s p rest : inner_text sd s p (lit "*" ++ rest) -> pattern_text sd (s ++ lit "*") (PZeroOrMore p) rest
| pt_more s p rest : inner_text sd s p (lit "+" ++ rest) -> pattern_text sd (s ++ lit "+") (POneOrMore p) rest
with sequence_text (sd : side) : str -> list pattern -> str -> Prop :=
| sq_one s p rest : pattern_text sd s p rest -> sequence_text sd s [p] rest
| sq_more s p s' l rest : pattern_text sd s p (s' ++ rest) -> sequence_text sd s' l rest ->
    sequence_text sd (s ++ s') (p :: l) rest
(** the bar binds less than a sequence, and to the left *)
with alternatives_text (sd : side) : str -> list pattern -> str -> Prop :=
| al_one s l rest : sequence_text sd s l rest -> ~ begins (fun c => ~ In c (lit "|)")) rest ->
    alternatives_text sd s l rest
| al_more s l s' l' rest : alternatives_text sd s l (lit "|" ++ s' ++ rest) -> sequence_text sd s' l' rest ->
    ~ begins (fun c => ~ In c (lit "|)")) rest ->
    alternatives_text sd (s ++ lit "|" ++ s') [PEither l l'] rest.

(** A whole operand.  Nothing at all and what begins with a hyphen match everywhere. *)
Inductive operand_text (sd : side) : str -> list pattern -> Prop :=
| ot_nothing : operand_text sd [] []
| ot_hyphen s : operand_text sd (lit "-" ++ s) [PEmpty]
| ot_pattern s l : alternatives_text sd s l [] -> ~ begins (is "-") s -> operand_text sd s l.
