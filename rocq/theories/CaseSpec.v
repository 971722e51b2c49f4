(** Characters that are told apart only as capital and small. *)
From Verif Require Import Base RuleModel ClassSpec TranslationModel TableModel TableProofs DefinitionSpec WordSpec.

(** the rules that can tell a capital from a small letter: those of the main pass and before it with
    patterns or tests, the spelled out computer braille triggers, those that ask the hyphenation dictionary, and those
    that want a capital or a small letter for a neighbour *)
Definition tells_case (r : rule) : bool :=
  match r with
  | RMatch _ _ _ _ _ | RContext _ _ _ | RCorrect _ _ _ | RCompbrl _ _ => true
  | _ => is_nocross r
  end.
Definition wants_case (w : with_class) : Prop :=
  match w with WBefore name | WAfter name => class_called name = CUppercase \/ class_called name = CLowercase end.
(** the characters a rule lets belong to numbers *)
Definition number_chars (r : rule) : list char :=
  match r with
  | RNumericmodechars cs | RMidnum cs _ _ => cs
  | RDecpoint c _ => [c]
  | _ => []
  end.
(** the dots of a definition *)
Definition written_as (x : context) (r : rule) (s : str) : Prop :=
  match r with
  | RSpace _ g _ | RPunctuation _ g _ | RLetter _ g _ | RLowercase _ g _ | RUppercase _ g _ | RSign _ g _ | RMath _ g _
  | RLitdigit _ g _ | RDigit _ g _ | RDecpoint _ g | RHyphen _ g _ => s = g
  | RBase _ _ base => defs_get (x_defs x) base = Some s
  | _ => False
  end.
Section Spec.
Variable lower : char -> list char.
Variable compat : bool.
Variable x : context.
Variable table : list rule.
(** the two are a capital and its small letter, as far as the table goes: they have the same
    lower case form, the same cells, the same part in numbers, and are of the same classes but
    for uppercase and lowercase *)
Record twins (c c' : char) : Prop := {
  tw_lower : lower c = lower c';
  tw_classes : forall k, k <> CUppercase -> k <> CLowercase -> (in_class compat table k c <-> in_class compat table k c');
  tw_numbers : forall r, In r table -> (In c (number_chars r) <-> In c' (number_chars r));
  tw_cells : exists r r' s, the_definition x table compat c r /\ the_definition x table compat c' r' /\ written_as x r s /\ written_as x r' s }.
(** two texts that differ in the case of some letters *)
Definition but_for_case : str -> str -> Prop := Forall2 (fun c c' => c = c' \/ twins c c').
(** a table whose rules do not tell case *)
Record case_blind : Prop := {
  cb_rules : forall r, In r table -> tells_case r = false;
  cb_classes : forall r w, In r table -> In w (with_classes r) -> ~ wants_case w }.
End Spec.
