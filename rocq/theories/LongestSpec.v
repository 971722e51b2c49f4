(** Translation by longest match: what a table of characters and plain contractions does. *)
From Verif Require Import Base RuleModel TranslationModel TableModel TableProofs DefinitionSpec UndefinedSpec SaysSpec CaseSpec.

(** tables of single characters and always rules *)
Definition plain (r : rule) : bool :=
  match r with
  | RSpace _ _ _ | RPunctuation _ _ _ | RLetter _ _ _ | RLowercase _ _ _ | RUppercase _ _ _ | RSign _ _ _ | RMath _ _ _
  | RLitdigit _ _ _ | RDigit _ _ _ | RHyphen _ _ _ | RBase _ _ _ | RUndefined _ => true
  | RAlways _ _ k [] => negb (nocross k)
  | _ => false
  end.
Section Spec.
Variable lower : char -> list char.
Variable compat : bool.
Variable x : context.          (* the characters of the table and their dots *)
Variable table : list rule.

(** the text starts with [text], in capitals or not *)
Definition begins (u text : str) : Prop := exists v w, u = v ++ w /\ Forall2 (fun c y => lower c = [y]) v text.
Definition a_litdigit (c : char) : Prop := exists g k, In (RLitdigit c g k) table.
(** an always rule for [text] that fits: in numbers only those for single digits do *)
Definition fits_here (u text : str) : Prop :=
  text <> [] /\ (exists g k, In (RAlways text g k []) table) /\ begins u text /\
  (1 < length text -> forall c, hd_error u = Some c -> ~ a_litdigit c).
(** the longest that fits, with the dots of the last rule for it *)
Definition longest (u text dots : str) : Prop :=
  fits_here u text /\ (forall text', fits_here u text' -> length text' <= length text) /\
  exists g k, the_last table (fun r => exists g k, r = RAlways text g k []) (RAlways text g k []) /\ means x g text dots.
(** a character on its own *)
Definition alone (c : char) (s : str) : Prop :=
  (exists r, the_definition x table compat c r /\ written_as x r s) \/
  ~ defined x table c /\
  ((exists g, the_last table (fun r => exists g, r = RUndefined g) (RUndefined g) /\ s = g) \/
   (forall g, ~ In (RUndefined g) table) /\ exists digits, numeral digits c /\ spelled (x_defs x) (lit "\x" ++ digits) s).
(** the translation of a text *)
Inductive reads : str -> str -> Prop :=
| ReadsEnd : reads [] []
| ReadsRule u text dots out : longest u text dots -> reads (skipn (length text) u) out -> reads u (dots ++ out)
| ReadsAlone c u s out : (forall text, ~ fits_here (c :: u) text) -> alone c s -> reads u out -> reads (c :: u) (s ++ out).
End Spec.
