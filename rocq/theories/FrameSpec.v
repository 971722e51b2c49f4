(** Rules that do nothing but offer a translation of their text. *)
From Verif Require Import Base RuleModel TranslationModel TableModel.

(** the text of such a rule *)
Definition translates (r : rule) : option str :=
  match r with
  | RAlways t _ _ _ | RSyllable t _ | RLargesign t _ | RWord t _ _ _ | RBegword t _ _ _ | RMidword t _ _ _
  | RPartword t _ _ _ | RMidendword t _ _ _ | REndword t _ _ _ | RPrfword t _ _ _ | RSufword t _ _ _
  | RBegmidword t _ _ _ | RJoinword t _ | RLowword t _ _ | RBegnum t _ _ | REndnum t _ _ | RComp6 t _ => Some t
  | _ => None
  end.
(** an always rule for a text of letters makes its cells letters, too *)
Definition makes_letters (is_alphabetic : char -> bool) (r : rule) : bool :=
  match r with RAlways t _ _ _ => forallb is_alphabetic t | _ => false end.
(** the text occurs in another, but for the case of letters in the latter *)
Definition occurs (lower : char -> list char) (t text : str) : Prop :=
  exists before here after, text = before ++ here ++ after /\ Forall2 (fun x c => lower c = [x]) t here.
Definition braille_pass (r : rule) : bool := match r with RPass2 _ _ _ | RPass3 _ _ _ | RPass4 _ _ _ => true | _ => false end.
(** what it translates the text into *)
Definition translation_of (r : rule) : braille :=
  match r with
  | RAlways _ d _ _ | RSyllable _ d | RWord _ d _ _ | RBegword _ d _ _ | RMidword _ d _ _
  | RPartword _ d _ _ | RMidendword _ d _ _ | REndword _ d _ _ | RPrfword _ d _ _ | RSufword _ d _ _
  | RBegmidword _ d _ _ | REndnum _ d _ | RComp6 _ d => d
  | RLargesign _ d | RJoinword _ d | RLowword _ d _ | RBegnum _ d _ => Explicit d
  | _ => Implicit
  end.
(** Forward the rule looks for its text, backward for its cells - where it has none of its own,
    those of the characters of its text. *)
Definition absent (lower : char -> list char) (d : direction) (x : context) (r : rule) (text : str) : Prop :=
  forall t, translates r = Some t ->
  match d with
  | Forward => ~ occurs lower t text
  | Backward => forall cells, braille_to_unicode (x_defs x) (translation_of r) t = TOk cells -> ~ occurs lower cells text
  end.
