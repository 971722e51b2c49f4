(** How a character that the table does not define is to be written: the documented form
    \xhhhh, spelled with the cells the table has for these characters, or with the built-in
    computer braille cells. *)
From Verif Require Import Base RuleModel TableModel BrailleModel.

(** [c] is the lower-case hexadecimal digit for [v] *)
Definition lower_digit (c : char) (v : N) : Prop :=
  (v < 10 /\ c = 48 + v \/ 10 <= v < 16 /\ c = 87 + v)%N.
(** a hexadecimal numeral without leading zeros *)
Inductive numeral : str -> N -> Prop :=
| Num_one c v : lower_digit c v -> numeral [c] v
| Num_more s v c w : numeral s v -> v <> 0%N -> lower_digit c w -> numeral (s ++ [c]) (16 * v + w)%N.

(** the cells for one character *)
Definition cells_for (defs : chardefs) (c : char) (cells : str) : Prop :=
  defs_get defs c = Some cells \/
  (defs_get defs c = None /\ exists cell, fallback c = Ok cell /\ cells = [cell]).
Definition spelled (defs : chardefs) (s out : str) : Prop :=
  exists parts, Forall2 (cells_for defs) s parts /\ out = concat parts.
