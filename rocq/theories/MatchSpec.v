(** What a pre- or post-pattern of a match rule means, as a relation between the positions
    where it begins and ends; independent of compiled patterns. *)
From Verif Require Import Base RuleModel TestSpec.

Section Pattern.
Variable members : class -> char -> Prop.
Variable at_start : bool.
Variable text : str.

Definition rel := nat -> nat -> Prop.
(** one character satisfying [P] *)
Definition one_char (P : char -> Prop) : rel :=
  fun i j => j = S i /\ exists a, nth_error text i = Some a /\ P a.
Definition here (P : nat -> Prop) : rel := fun i j => j = i /\ P i.
Definition boundary (s : side) (i : nat) : Prop :=
  match s with SPre => at_start = true /\ i = 0 | SPost => i = length text end.
Definition either_rel (a b : rel) : rel := fun i j => a i j \/ b i j.
Definition then_rel (a b : rel) : rel := fun i k => exists j, a i j /\ b j k.
Fixpoint seq_rel (l : list rel) : rel :=
  match l with [] => here (fun _ => True) | a :: r => then_rel a (seq_rel r) end.
Fixpoint times_rel (n : nat) (a : rel) : rel :=
  match n with 0 => here (fun _ => True) | S m => then_rel a (times_rel m a) end.
Definition polar (neg : bool) (P : Prop) : Prop := if neg then ~ P else P.

(** [pat_rel neg p i j]: the pattern (under a negation if [neg]) fits [i..j).  A negation
    is passed down to the parts: this is what the code does, see C22 for what is wrong
    with it. *)
Fixpoint pat_rel (neg : bool) (p : pattern) : rel :=
  match p with
  | PEmpty => here (fun _ => polar neg True)
  | PCharacters s => fun i j => j = i + length s /\ if neg then differs text s i else stands text s i
  | PBoundary s => here (fun i => polar neg (boundary s i))
  | PAny => one_char (fun _ => polar neg True)
  | PSet cs => one_char (fun c => polar neg (In c cs))
  | PAttributes attrs => one_char (fun c => polar neg (has_attr members attrs c))
  | PAttributesOrBoundary attrs s =>
      either_rel (one_char (fun c => polar neg (has_attr members attrs c)))
                 (here (fun i => polar neg (boundary s i)))
  | PGroup ps => seq_rel (map (pat_rel neg) ps)
  | PNegate q => if neg then (fun _ _ => False) else pat_rel true q
  | POptional q => either_rel (pat_rel neg q) (here (fun _ => True))
  | PZeroOrMore q => fun i j => exists n, times_rel n (pat_rel neg q) i j
  | POneOrMore q => fun i j => exists n, times_rel (S n) (pat_rel neg q) i j
  | PEither l r => either_rel (seq_rel (map (pat_rel neg) l)) (seq_rel (map (pat_rel neg) r))
  end.
(** a pattern operand: its parts one after the other *)
Definition pats_rel (ps : list pattern) : rel := seq_rel (map (pat_rel false) ps).
End Pattern.
