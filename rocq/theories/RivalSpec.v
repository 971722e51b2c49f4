(** Which rules of a table stand in each other's way: the same text (backward: the same cells)
    in the same place; and which opcodes displace earlier rules. *)
From Verif Require Import Base RuleModel TranslationModel TableModel TraceSpec WordSpec SaysSpec.

(** What is asked of a neighbouring character. *)
Inductive side := Anything | Edge | Letter | Digit | LetterOrEdge.
(** Where an opcode applies: the alternatives for what stands before and behind.  Forward,
    the definitions of characters are used only where no rule applies, and signs are not
    looked up in the text; backward both are read like a rule that applies everywhere. *)
Definition places (d : direction) (r : rule) : list (side * side) :=
  match r with
  | RAlways _ _ _ _ | RSyllable _ _ | RLargesign _ _ | RPrepunc _ _ _ | RPostpunc _ _ _ => [(Anything, Anything)]
  | RWord _ _ _ _ | RContraction _ | RJoinword _ _ | RLowword _ _ _ => [(Edge, Edge)]
  | RBegword _ _ _ _ => [(Edge, Letter)]
  | RMidword _ _ _ _ => [(Letter, Letter)]
  | REndword _ _ _ _ => [(Letter, Edge)]
  | RPartword _ _ _ _ => [(Letter, Anything); (Anything, Letter)]
  | RMidendword _ _ _ _ => [(Letter, LetterOrEdge)]
  | RBegmidword _ _ _ _ => [(LetterOrEdge, Letter)]
  | RPrfword _ _ _ _ => [(Edge, Edge); (Letter, Edge)]
  | RSufword _ _ _ _ => [(Edge, Edge); (Edge, Letter)]
  | RBegnum _ _ _ => [(Edge, Digit)]
  | RMidnum _ _ _ => [(Digit, Digit)]
  | REndnum _ _ _ => [(Digit, Anything)]
  | RDecpoint _ _ | RHyphen _ _ _ | RSpace _ _ _ | RPunctuation _ _ _ | RLetter _ _ _ | RLowercase _ _ _ | RUppercase _ _ _
  | RSign _ _ _ | RMath _ _ _ | RLitdigit _ _ _ | RDigit _ _ _ | RBase _ _ _
  | RNumsign _ | RNonumsign _ _ | RCapsletter _ _ | RBegcapsword _ _ | REndcapsword _ _ =>
      match d with Forward => [] | Backward => [(Anything, Anything)] end
  | _ => []
  end.
(** What is looked up in the text: the text of a rule, backward its cells. *)
Definition looks_for (d : direction) (x : context) (r : rule) (s : str) : Prop :=
  exists text dots, says x r text dots /\ s = match d with Forward => text | Backward => dots end.
(** prepunc and postpunc rules count only if their text is punctuation, and a sign is read
    backward only if no letter has the same cells *)
Definition takes_part (x : context) (rules : list rule) (r : rule) : Prop :=
  match r with
  | RPrepunc t _ _ | RPostpunc t _ _ => forall c, In c t -> cls_has (x_chars x) CPunctuation c = true
  | RNumsign dots | RNonumsign dots _ | RCapsletter dots _ | RBegcapsword dots _ | REndcapsword dots _ =>
      forall q c k, In q rules -> ~ (q = RLetter c dots k \/ q = RLowercase c dots k \/ q = RUppercase c dots k)
  | _ => True
  end.
(** rules with the mark nocross are kept apart *)
Definition marked_nocross (r : rule) : bool :=
  match r with
  | RAlways _ _ k _ | RWord _ _ k _ | RBegword _ _ k _ | RMidword _ _ k _ | RPartword _ _ k _ | RMidendword _ _ k _
  | REndword _ _ k _ | RPrfword _ _ k _ | RSufword _ _ k _ | RBegmidword _ _ k _ => nocross k
  | RBegnum _ _ k | RMidnum _ _ k | REndnum _ _ k | RPrepunc _ _ k | RPostpunc _ _ k | RLowword _ _ k => nocross k
  | _ => false
  end.
(** [stands_in s r]: wherever [r] could be applied, [s] could be, on the same conditions *)
Definition stands_in (d : direction) (x : context) (rules : list rule) (s r : rule) : Prop :=
  (exists k, looks_for d x r k /\ looks_for d x s k) /\ (forall p, In p (places d r) -> In p (places d s)) /\
  with_classes s = with_classes r /\ marked_nocross s = marked_nocross r /\ takes_part x rules s.
(** The opcodes that displace earlier rules. *)
Definition displaces (r : rule) : bool :=
  match r with
  | RAlways _ _ _ _ | RWord _ _ _ _ | RJoinword _ _ | RBegword _ _ _ _ | RMidword _ _ _ _ | REndword _ _ _ _
  | RMidendword _ _ _ _ | RBegmidword _ _ _ _ | RSufword _ _ _ _ | RBegnum _ _ _ | RMidnum _ _ _ | REndnum _ _ _
  | RNumsign _ | RNonumsign _ _ | RCapsletter _ _ | RBegcapsword _ _ | REndcapsword _ _ => true
  | _ => false
  end.
(** decpoint and hyphen are entered before all other rules, wherever they stand *)
Definition comes_first (r : rule) : bool :=
  match r with RDecpoint _ _ | RHyphen _ _ _ => true | _ => false end.
(** signs and digits can also come about without being looked up *)
Definition looked_up (d : direction) (r : rule) : bool :=
  match r with
  | RNumsign _ | RNonumsign _ _ | RCapsletter _ _ | RBegcapsword _ _ | REndcapsword _ _ => false
  | RLitdigit _ _ _ | RDigit _ _ _ => false
  | _ => match places d r with [] => false | _ => true end
  end.
