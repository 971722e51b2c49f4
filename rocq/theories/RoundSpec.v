(** Tables that lose nothing: unconditional rules whose dots can be told apart. *)
From Verif Require Import Base RuleModel.

(** the text and the dots of a rule that has no conditions *)
Definition plain (r : rule) : option (str * str) :=
  match r with
  | RSpace c g _ | RPunctuation c g _ | RLetter c g _ | RLowercase c g _ | RUppercase c g _ | RSign c g _ | RMath c g _
  | RDigit c g _ | RLitdigit c g _ | RHyphen c g _ => Some ([c], g)
  | RDecpoint c g => Some ([c], g)
  | RAlways t (Explicit g) _ [] | RSyllable t (Explicit g) => Some (t, g)
  | RLargesign t g => Some (t, g)
  | _ => None
  end.
(** the rules that define a character, with its dots *)
Definition character (r : rule) : option (char * str) :=
  match r with
  | RSpace c g _ | RPunctuation c g _ | RLetter c g _ | RLowercase c g _ | RUppercase c g _ | RSign c g _ | RMath c g _
  | RDigit c g _ | RLitdigit c g _ | RHyphen c g _ => Some (c, g)
  | RDecpoint c g => Some (c, g)
  | _ => None
  end.
(** a rule without [nofor], [noback] and [nocross] *)
Definition unmarked (r : rule) : Prop :=
  forall k, rule_constraints r = Some k -> nofor k = false /\ noback k = false /\ nocross k = false.
Definition is_display (r : rule) : bool := match r with RDisplay _ _ _ => true | _ => false end.

(** A table is lossless if all its rules (display rules apart) are unmarked rules without
    conditions, if the dots of no rule begin with the dots of another - unless the two are
    for the same text and dots -, if cells are not changed by putting them in lower case and
    are not declared to be digits. *)
Record lossless (lower : char -> list char) (table : list rule) : Prop := {
  ll_plain : forall r, In r table -> is_display r = true \/ exists p, plain r = Some p;
  ll_unmarked : forall r, In r table -> unmarked r;
  ll_code : forall r1 r2 t1 g1 t2 g2 rest, In r1 table -> In r2 table -> plain r1 = Some (t1, g1) -> plain r2 = Some (t2, g2) ->
    g2 = g1 ++ rest -> t1 = t2 /\ g1 = g2;
  ll_cells : forall r t g c, In r table -> plain r = Some (t, g) -> In c g ->
    lower c = [c] /\ forall g' k, ~ In (RLitdigit c g' k) table }.
(** every character of a text is defined *)
Definition defined (table : list rule) (text : str) : Prop :=
  forall c, In c text -> exists r g, In r table /\ character r = Some (c, g).
(** a table of characters, each with one definition *)
Definition alphabet (table : list rule) : Prop :=
  (forall r, In r table -> is_display r = true \/ exists p, character r = Some p) /\
  (forall r1 r2 c g1 g2, In r1 table -> In r2 table -> character r1 = Some (c, g1) -> character r2 = Some (c, g2) -> g1 = g2).
(** the braille of a text, character by character *)
Inductive braille_of (table : list rule) : str -> str -> Prop :=
| Braille_end : braille_of table [] []
| Braille_char c g r text dots : In r table -> character r = Some (c, g) -> braille_of table text dots ->
    braille_of table (c :: text) (g ++ dots).
