(** Back-translation by longest match: what a table of characters and plain contractions makes of cells. *)
From Verif Require Import Base RuleModel TranslationModel TableModel DefinitionSpec UndefinedSpec SaysSpec LongestSpec.

Section Spec.
Variable lower : char -> list char.
Variable compat : bool.
Variable x : context.          (* the characters of the table and their dots *)
Variable table : list rule.

Definition an_always (r : rule) : Prop := exists t g k w, r = RAlways t g k w.
Definition a_hyphen (r : rule) : Prop := exists c g k, r = RHyphen c g k.
(** a rule with these dots *)
Definition has_dots (dots : str) (r : rule) : Prop := exists text, says x r text dots.
(** Which of the rules with the same dots is read.  In the default build the last always rule,
    if there is none the first hyphen rule, if there is none the first definition; in the
    other build the last rule that is not for a hyphen, if there is none the last one. *)
Definition the_reading (dots : str) (r : rule) : Prop :=
  if compat
  then the_last table (fun s => an_always s /\ has_dots dots s) r \/
    (forall s, In s table -> ~ (an_always s /\ has_dots dots s)) /\
    (the_first table (fun s => a_hyphen s /\ has_dots dots s) r \/
     (forall s, In s table -> ~ (a_hyphen s /\ has_dots dots s)) /\ the_first table (has_dots dots) r)
  else the_last table (fun s => ~ a_hyphen s /\ has_dots dots s) r \/
    (forall s, In s table -> ~ (~ a_hyphen s /\ has_dots dots s)) /\ the_last table (has_dots dots) r.
(** dots of a rule that come next; where the cell itself is one the table defines as a
    litdigit only single cells do *)
Definition fits_back (u dots : str) : Prop :=
  dots <> [] /\ (exists r, In r table /\ has_dots dots r) /\ begins lower u dots /\
  (1 < length dots -> forall c, hd_error u = Some c -> ~ a_litdigit table c).
Definition longest_back (u dots text : str) : Prop :=
  fits_back u dots /\ (forall dots', fits_back u dots' -> length dots' <= length dots) /\
  exists r, the_reading dots r /\ says x r text dots.
(** a cell that no rule has *)
Definition unknown (c : char) (s : str) : Prop :=
  (exists g, the_last table (fun r => exists g, r = RUndefined g) (RUndefined g) /\ s = g) \/
  (forall g, ~ In (RUndefined g) table) /\ exists digits, numeral digits c /\ spelled (x_defs x) (lit "\x" ++ digits) s.
(** the text read from cells *)
Inductive reads_back : str -> str -> Prop :=
| BackEnd : reads_back [] []
| BackRule u dots text out : longest_back u dots text -> reads_back (skipn (length dots) u) out -> reads_back u (text ++ out)
| BackUnknown c u s out : (forall dots, ~ fits_back (c :: u) dots) -> unknown c s -> reads_back u out -> reads_back (c :: u) (s ++ out).
End Spec.
