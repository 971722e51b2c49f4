(** Where the word and number opcodes may be applied, as documented: in terms of the
    characters before and behind the text of a rule. *)
From Verif Require Import Base RuleModel ClassSpec TranslationModel TableModel.

Section Spec.
Variable x : context.
Definition of_class (k : class) (o : option char) : Prop := exists c, o = Some c /\ cls_has (x_chars x) k c = true.
Definition a_letter_at := of_class CLetter.
Definition a_digit_at := of_class CDigit.
(** the start or end of the text, a space or a punctuation character *)
Definition edge (o : option char) : Prop := o = None \/ of_class CSpace o \/ of_class CPunctuation o.
(** [before] and [behind] are the neighbours of the text *)
Definition opcode_place (r : rule) (before behind : option char) : Prop :=
  match r with
  | RWord _ _ _ _ | RContraction _ | RJoinword _ _ | RLowword _ _ _ => edge before /\ edge behind
  | RBegword _ _ _ _ => edge before /\ a_letter_at behind
  | RMidword _ _ _ _ => a_letter_at before /\ a_letter_at behind
  | REndword _ _ _ _ => a_letter_at before /\ edge behind
  | RPartword _ _ _ _ => a_letter_at before \/ a_letter_at behind
  | RMidendword _ _ _ _ => a_letter_at before /\ (a_letter_at behind \/ edge behind)
  | RBegmidword _ _ _ _ => (a_letter_at before \/ edge before) /\ a_letter_at behind
  | RPrfword _ _ _ _ => (edge before \/ a_letter_at before) /\ edge behind
  | RSufword _ _ _ _ => edge before /\ (edge behind \/ a_letter_at behind)
  | RBegnum _ _ _ => edge before /\ a_digit_at behind
  | RMidnum _ _ _ => a_digit_at before /\ a_digit_at behind
  | REndnum _ _ _ => a_digit_at before
  | _ => True
  end.
(** "before class" and "after class" in front of a rule, for the classes the table has; at
    the edge of the text only [space] is taken to be there *)
Definition with_classes (r : rule) : list with_class :=
  match r with
  | RAlways _ _ _ w | RWord _ _ _ w | RBegword _ _ _ w | RMidword _ _ _ w | RPartword _ _ _ w | RMidendword _ _ _ w
  | REndword _ _ _ w | RPrfword _ _ _ w | RSufword _ _ _ w | RBegmidword _ _ _ w => w
  | _ => []
  end.
Definition known (name : str) : Prop := cls_get (x_chars x) (class_called name) <> None.
Definition neighbour (name : str) (o : option char) : Prop :=
  of_class (class_called name) o \/ o = None /\ class_called name = CSpace.
Definition classes_around (r : rule) (before behind : option char) : Prop :=
  forall w, In w (with_classes r) ->
    match w with
    | WBefore name => known name -> neighbour name behind
    | WAfter name => known name -> neighbour name before
    end.
(** the text of a rule *)
Definition rule_text (r : rule) : option str :=
  match r with
  | RAlways t _ _ _ | RWord t _ _ _ | RBegword t _ _ _ | RMidword t _ _ _ | RPartword t _ _ _ | RMidendword t _ _ _
  | REndword t _ _ _ | RPrfword t _ _ _ | RSufword t _ _ _ | RBegmidword t _ _ _ => Some t
  | RContraction t | RSyllable t _ | RLargesign t _ | RJoinword t _ | RLowword t _ _ | RBegnum t _ _ | RMidnum t _ _
  | REndnum t _ _ | RPrepunc t _ _ | RPostpunc t _ _ => Some t
  | _ => None
  end.
(** prepunc and postpunc rules count only for texts of punctuation characters *)
Definition counts (r : rule) : Prop :=
  match r with RPrepunc t _ _ | RPostpunc t _ _ => forallb (cls_has (x_chars x) CPunctuation) t = true | _ => True end.
End Spec.
