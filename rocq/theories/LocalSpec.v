(** Tables that translate word by word. *)
From Verif Require Import Base RuleModel TranslationModel TableModel TableProofs FrameSpec.

(** the text of a rule *)
Definition text_of (r : rule) : option str :=
  match r with
  | RContraction t | RMidnum t _ _ | RPrepunc t _ _ | RPostpunc t _ _ => Some t
  | _ => translates r
  end.
(** the characters a rule adds to numbers and words in capitals *)
Definition mode_chars (r : rule) : list char :=
  match r with
  | RCapsmodechars cs | RNumericmodechars cs | RNumericnocontchars cs => cs
  | RDecpoint c _ => [c]
  | _ => []
  end.
(** the rules that can look beyond a word, and compbrl, which calls for computer braille *)
Definition beyond_words (r : rule) : bool :=
  match r with
  | RMatch _ _ _ _ _ | RContext _ _ _ | RCorrect _ _ _ | RPass2 _ _ _ | RPass3 _ _ _ | RPass4 _ _ _
  | RLetsign _ | RBegcaps _ | RBegcapsphrase _ | RCompbrl _ _ => true
  | _ => false
  end.
(** The character [sp] separates words: it is of the class space and of no other, it has no
    other lower case form, it is not in the text of a rule, and no rule looks beyond words. *)
Record wordwise (lower : char -> list char) (compat : bool) (table : list rule) (sp : char) : Prop := {
  ww_rules : forall r, In r table -> beyond_words r = false;
  ww_text : forall r t, In r table -> text_of r = Some t -> ~ In sp t;
  ww_modes : forall r, In r table -> ~ In sp (mode_chars r);
  ww_blank : forall k, in_class compat table k sp <-> k = CSpace;
  ww_lower : lower sp = [sp] }.
(** words with a separator between them *)
Fixpoint spaced (gap : str) (ws : list str) : str :=
  match ws with
  | [] => []
  | [w] => w
  | w :: r => w ++ gap ++ spaced gap r
  end.
