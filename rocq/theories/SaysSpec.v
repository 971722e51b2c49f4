(** What a rule of the main pass says: which text belongs to which dots. *)
From Verif Require Import Base RuleModel TranslationModel TableModel TableProofs TraceSpec.

(** the dots operand [b] of a rule for [text]: given, or (written [=]) the dots of the
    characters one after the other *)
Definition means (x : context) (b : braille) (text dots : str) : Prop :=
  match b with Explicit given => dots = given | Implicit => spells (x_defs x) text dots end.
(** [says x r text dots]: the rule [r] is one for [text] and [dots]; [x] has the definitions of
    the characters of the table.  Rules with a test and an action are left out (C24). *)
Definition says (x : context) (r : rule) (text dots : str) : Prop :=
  match r with
  | RContraction t => text = t /\ means x Implicit t dots
  | RAlways t b _ _ | RWord t b _ _ | RBegword t b _ _ | RMidword t b _ _ | RPartword t b _ _ | RMidendword t b _ _
  | REndword t b _ _ | RPrfword t b _ _ | RSufword t b _ _ | RBegmidword t b _ _ => text = t /\ means x b t dots
  | RSyllable t b | RComp6 t b => text = t /\ means x b t dots
  | REndnum t b _ => text = t /\ means x b t dots
  | RMatch _ t _ b _ => text = t /\ means x b t dots
  | RLargesign t g | RJoinword t g => text = t /\ dots = g
  | RLowword t g _ | RBegnum t g _ | RMidnum t g _ | RPrepunc t g _ | RPostpunc t g _ => text = t /\ dots = g
  | RDecpoint c g => text = [c] /\ dots = g
  | RHyphen c g _ | RSpace c g _ | RPunctuation c g _ | RLetter c g _ | RLowercase c g _ | RUppercase c g _ | RSign c g _
  | RMath c g _ | RLitdigit c g _ | RDigit c g _ => text = [c] /\ dots = g
  | RBase _ c base => text = [c] /\ defs_get (x_defs x) base = Some dots
  | _ => match sign_dots r with Some g => text = [] /\ dots = g | None => False end
  end.
(** backward, text may have been put in capitals or its first character may *)
Definition capitals (upper : char -> list char) (text out : str) : Prop :=
  out = text \/ out = flat_map upper text \/ exists c r, text = c :: r /\ out = upper c ++ r.
