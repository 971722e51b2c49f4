(** What a context, correct or pass2-4 test means (liblouis manual, "The Context and
    Multipass Opcodes"), independent of patterns and byte code.  Positions are character
    indices into the text from the cursor on. *)
From Verif Require Import Base RuleModel ClassSpec.

Section Test.
Variable members : class -> char -> Prop.   (* the classes of the table *)
Variable env : N -> option N.               (* the variables *)
Variable at_start : bool.                   (* the cursor is at the start of the input *)
Variable text : str.

(** every character of [i..j) exists and satisfies [P] *)
Definition stretch (P : char -> Prop) (i j : nat) : Prop :=
  forall k, i <= k < j -> exists a, nth_error text k = Some a /\ P a.
(** [s] stands at [i] *)
Definition stands (s : str) (i : nat) : Prop :=
  forall k x, nth_error s k = Some x -> nth_error text (i + k) = Some x.
(** there are as many characters as [s] has, and each differs from that of [s] *)
Definition differs (s : str) (i : nat) : Prop :=
  forall k x, nth_error s k = Some x -> exists y, nth_error text (i + k) = Some y /\ y <> x.
Definition has_attr (attrs : list attribute) (c : char) : Prop :=
  exists k, In (AClass k) attrs /\ members k c.

(** How many characters a quantifier admits.  For a range [m-n] this is what the code
    does, see C21; it should be m <= k <= n. *)
Definition count_ok (q : option quantifier) (k : nat) : Prop :=
  match q with
  | None => k = 1
  | Some (QNumber n) => k = N.to_nat n
  | Some (QRange m n) => exists b, k = N.to_nat m + b * (N.to_nat n - N.to_nat m)
  | Some QOneOrMore => 1 <= k
  end.

(** [Test t i j]: the instruction is satisfied by the stretch [i..j).
    [Tests ts i j]: the instructions one after the other. *)
Inductive Test : test_instr -> nat -> nat -> Prop :=
| T_lookback : forall n i, Test (TLookback n) i i
| T_variable : forall v x i, env v = Some x -> Test (TVariable v OpEq x) i i
| T_string : forall s i, stands s i -> Test (TString s) i (i + length s)
| T_dots : forall s i, stands s i -> Test (TDots s) i (i + length s)
| T_attributes : forall attrs q k i, count_ok q k -> stretch (has_attr attrs) i (i + k) ->
    Test (TAttributes attrs q) i (i + k)
| T_class : forall name q k i, count_ok q k -> stretch (members (class_called name)) i (i + k) ->
    Test (TClass name q) i (i + k)
| T_begin : at_start = true -> Test TAtBeginning 0 0
| T_end : Test TAtEnd (length text) (length text)
| T_replace : forall ts i j, Tests ts i j -> Test (TReplace ts) i j
| T_not_variable : forall v x y i, env v = Some y -> y <> x -> Test (TNegate (TVariable v OpEq x)) i i
| T_not_string : forall s i, differs s i -> Test (TNegate (TString s)) i (i + length s)
| T_not_dots : forall s i, differs s i -> Test (TNegate (TDots s)) i (i + length s)
| T_not_attributes : forall attrs q k i, count_ok q k ->
    stretch (fun c => ~ has_attr attrs c) i (i + k) -> Test (TNegate (TAttributes attrs q)) i (i + k)
| T_not_class : forall name q k i, count_ok q k ->
    stretch (fun c => ~ members (class_called name) c) i (i + k) -> Test (TNegate (TClass name q)) i (i + k)
| T_not_begin : forall i, ~ (at_start = true /\ i = 0) -> Test (TNegate TAtBeginning) i i
| T_not_end : forall i, i <> length text -> Test (TNegate TAtEnd) i i
with Tests : list test_instr -> nat -> nat -> Prop :=
| Ts_nil : forall i, Tests [] i i
| Ts_cons : forall t ts i j k, Test t i j -> Tests ts j k -> Tests (t :: ts) i k.
End Test.

(** What an action produces, given the replaced text.  [swap_of name c] is the replacement
    the swap class gives for a character. *)
Section Action.
Variable swap_of : str -> char -> option str.
Variable replaced : str.
Definition swapped (name : str) : str :=
  flat_map (fun c => match swap_of name c with Some s => s | None => [c] end) replaced.
Definition action_output (a : action_instr) : str :=
  match a with
  | ActString s => s
  | ActDots s => s
  | ActReplace => replaced
  | ActSwapClass name => swapped name
  | ActIgnore | ActAssignment _ _ | ActIncrement _ | ActDecrement _ => []
  end.
End Action.

(** no brackets *)
Fixpoint bracket_free (t : test_instr) : bool :=
  match t with
  | TReplace _ => false
  | TNegate t' => bracket_free t'
  | _ => true
  end.
