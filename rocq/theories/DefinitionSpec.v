(** Which of the definitions of a character counts when text is translated to braille. *)
From Verif Require Import Base RuleModel TableModel.

Section Spec.
Variable x : context.            (* for the dots of base characters *)
Variable rules : list rule.

(** decpoint and hyphen are looked at before all other definitions *)
Definition early (r : rule) (c : char) : Prop := (exists g, r = RDecpoint c g) \/ (exists g k, r = RHyphen c g k).
(** the other opcodes that define a character; a digit rule only if no litdigit rule is there
    for the same character; a base rule only if the base character has dots *)
Definition late (r : rule) (c : char) : Prop :=
  match r with
  | RSpace c' _ _ | RPunctuation c' _ _ | RLetter c' _ _ | RLowercase c' _ _ | RUppercase c' _ _
  | RSign c' _ _ | RMath c' _ _ | RLitdigit c' _ _ => c = c'
  | RDigit c' _ _ => c = c' /\ ~ exists g k, In (RLitdigit c g k) rules
  | RBase _ c' base => c = c' /\ defs_get (x_defs x) base <> None
  | _ => False
  end.
Definition defined (c : char) : Prop := exists r, In r rules /\ (early r c \/ late r c).

(** the first, or the last, rule of the table that does *)
Definition the_first (p : rule -> Prop) (r : rule) : Prop :=
  exists l1 l2, rules = l1 ++ r :: l2 /\ p r /\ forall s, In s l1 -> ~ p s.
Definition the_last (p : rule -> Prop) (r : rule) : Prop :=
  exists l1 l2, rules = l1 ++ r :: l2 /\ p r /\ forall s, In s l2 -> ~ p s.
(** The rule that counts: in the default build the first one, decpoint and hyphen before the
    others, in the other build the last one. *)
Definition the_definition (default : bool) (c : char) (r : rule) : Prop :=
  if default
  then the_first (fun s => early s c) r \/ (forall s, In s rules -> ~ early s c) /\ the_first (fun s => late s c) r
  else the_last (fun s => late s c) r \/ (forall s, In s rules -> ~ late s c) /\ the_last (fun s => early s c) r.
End Spec.

(** a rule that defines a single character *)
Definition defines_one (r : rule) : bool :=
  match r with
  | RDecpoint _ _ | RHyphen _ _ _ | RSpace _ _ _ | RPunctuation _ _ _ | RLetter _ _ _ | RLowercase _ _ _ | RUppercase _ _ _
  | RSign _ _ _ | RMath _ _ _ | RLitdigit _ _ _ | RDigit _ _ _ | RBase _ _ _ => true
  | _ => false
  end.
