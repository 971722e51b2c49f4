(** Tables for uncontracted braille: every character has one cell, a capital is its letter
    behind the capital sign, and digits may share their cells with letters, told apart by
    the number sign. *)
From Verif Require Import Base RuleModel RoundSpec.

Inductive role := ALetter | ADigit | AnOther.
(** a rule that gives a character one cell *)
Definition one_cell (r : rule) : option (role * char * char) :=
  match r with
  | RLetter c [g] _ | RLowercase c [g] _ => Some (ALetter, c, g)
  | RLitdigit c [g] _ => Some (ADigit, c, g)
  | RSpace c [g] _ | RPunctuation c [g] _ | RSign c [g] _ | RMath c [g] _ | RHyphen c [g] _ => Some (AnOther, c, g)
  | _ => None
  end.
Definition uppercase : str := lit "uppercase".

Section Table.
Variable table : list rule.
(** the character [c] has the cell [g] *)
Definition has_cell (k : role) (c g : char) : Prop := exists r, In r table /\ one_cell r = Some (k, c, g).
(** [C] is the capital of [c] *)
Definition capital_of (C c : char) : Prop := In (RBase uppercase C c) table.

(** The tables: [gc] is the cell of the capital sign and [gn] that of the number sign. *)
Record uncontracted (lower upper : char -> list char) (gc gn : char) : Prop := {
  (* the rules *)
  un_rules : forall r, In r table -> is_display r = true \/ (exists s, one_cell r = Some s) \/
    (exists C c, r = RBase uppercase C c) \/ (exists k, r = RCapsletter [gc] k) \/ r = RNumsign [gn];
  un_unmarked : forall r, In r table -> unmarked r;
  un_capsletter : exists k, In (RCapsletter [gc] k) table;
  un_numsign : In (RNumsign [gn]) table;
  (* a character has one cell *)
  un_char : forall k1 k2 c g1 g2, has_cell k1 c g1 -> has_cell k2 c g2 -> k1 = k2 /\ g1 = g2;
  (* a cell stands for one character, but that a letter and a digit may share one; the rule
     for the letter comes first *)
  un_cell : forall l1 r1 l2 r2 l3 k1 c1 k2 c2 g, table = l1 ++ r1 :: l2 ++ r2 :: l3 ->
    one_cell r1 = Some (k1, c1, g) -> one_cell r2 = Some (k2, c2, g) -> c1 = c2 \/ (k1 = ALetter /\ k2 = ADigit);
  (* capitals: behind the rule for the letter *)
  un_base : forall l1 C c l2, table = l1 ++ RBase uppercase C c :: l2 ->
    (exists r g, In r l1 /\ one_cell r = Some (ALetter, c, g)) /\
    (forall k g, ~ has_cell k C g) /\ lower C = [c] /\ upper c = [C];
  (* the signs are not the cells of characters *)
  un_differ : gc <> gn;
  un_signs : forall k c, ~ has_cell k c gc /\ ~ has_cell k c gn;
  (* cells are not characters of the table and have no case *)
  un_cells : forall g, g = gc \/ g = gn \/ (exists k c, has_cell k c g) ->
    lower g = [g] /\ (forall k g', ~ has_cell k g g') /\ (forall c, ~ capital_of g c) }.

(** A text written out: [spelt_out digit text dots], behind a digit or not. *)
Inductive spelt_out (gc gn : char) : bool -> str -> str -> Prop :=
| Spelt_end after : spelt_out gc gn after [] []
| Spelt_char after k c g text dots : has_cell k c g -> k <> ADigit -> spelt_out gc gn false text dots ->
    spelt_out gc gn after (c :: text) (g :: dots)
| Spelt_capital after C c g text dots : capital_of C c -> has_cell ALetter c g -> spelt_out gc gn false text dots ->
    spelt_out gc gn after (C :: text) (gc :: g :: dots)
| Spelt_number c g text dots : has_cell ADigit c g -> spelt_out gc gn true text dots ->
    spelt_out gc gn false (c :: text) (gn :: g :: dots)
| Spelt_digit c g text dots : has_cell ADigit c g -> spelt_out gc gn true text dots ->
    spelt_out gc gn true (c :: text) (g :: dots).

(** the text is made of characters of the table *)
Definition known_text (text : str) : Prop :=
  forall c, In c text -> (exists k g, has_cell k c g) \/ (exists c', capital_of c c').
(** No digit stands right behind a letter, and no (small) letter with the cell of a digit
    right behind a digit. *)
Definition readable (text : str) : Prop :=
  forall a c1 c2 b, text = a ++ c1 :: c2 :: b ->
    (forall g2, has_cell ADigit c2 g2 -> (forall g, ~ has_cell ALetter c1 g) /\ (forall c, ~ capital_of c1 c)) /\
    (forall g1 g2, has_cell ADigit c1 g1 -> has_cell ALetter c2 g2 -> forall c, ~ has_cell ADigit c g2).
End Table.
