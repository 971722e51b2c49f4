(** Independent specification of what a pattern matches.  Nothing here refers to
    byte code, threads or byte offsets: positions are character indices into
    the input.

    [Mat r i c j c'] says that pattern [r] matches the stretch [i..j) of the
    input; [c]/[c'] is the most recent capture span (character indices) before
    and after.  Anchors and variable tests are interpreted at the position where
    they stand. *)
From Verif Require Import Base RegexpModel.

Section Spec.
Variable lower : char -> list char.
Variable env : N -> option N.
Variable at_start : bool.
Variable input : str.

Definition span := (nat * nat)%type.

(** the character at index [i] exists and satisfies [p] *)
Definition char_ok (p : char -> bool) (i : nat) : Prop :=
  exists a, nth_error input i = Some a /\ p a = true.

(** a string of single-character tests *)
Fixpoint chars_ok (ps : list (char -> bool)) (i : nat) : Prop :=
  match ps with
  | [] => True
  | p :: r => char_ok p i /\ chars_ok r (S i)
  end.

(** a character matches case-insensitively: its lower case is the single char [e] *)
Definition ci_eq (e a : char) : bool := ci_match lower a e.

Definition atom_var_eq (v x : N) : Prop := env v = Some x.
Definition atom_var_ne (v x : N) : Prop := exists y, env v = Some y /\ y <> x.

Inductive Mat : regexp -> nat -> span -> nat -> span -> Prop :=
| M_lit : forall e i c, char_ok (N.eqb e) i -> Mat (RLiteral e) i c (S i) c
| M_any : forall i c, char_ok (fun _ => true) i -> Mat RAny i c (S i) c
| M_class : forall cs i c, char_ok (fun a => mem a cs) i -> Mat (RClass cs) i c (S i) c
| M_nclass : forall cs i c, char_ok (fun a => negb (mem a cs)) i -> Mat (RNotClass cs) i c (S i) c
| M_string : forall s i c, chars_ok (map N.eqb s) i -> Mat (RString s) i c (i + length s) c
| M_nstring : forall s i c, chars_ok (map (fun e a => negb (N.eqb e a)) s) i ->
      Mat (RNotString s) i c (i + length s) c
| M_cistring : forall s i c, chars_ok (map ci_eq s) i -> Mat (RCIString s) i c (i + length s) c
| M_concat : forall a b i c j c' k c'',
      Mat a i c j c' -> Mat b j c' k c'' -> Mat (RConcat a b) i c k c''
| M_left : forall a b i c j c', Mat a i c j c' -> Mat (REither a b) i c j c'
| M_right : forall a b i c j c', Mat b i c j c' -> Mat (REither a b) i c j c'
| M_opt_some : forall a i c j c', Mat a i c j c' -> Mat (ROptional a) i c j c'
| M_opt_none : forall a i c, Mat (ROptional a) i c i c
| M_star : forall a n i c j c', Mat (RRepeatExactly n a) i c j c' -> Mat (RZeroOrMore a) i c j c'
| M_plus : forall a n i c j c', Mat (RRepeatExactly (S n) a) i c j c' -> Mat (ROneOrMore a) i c j c'
| M_exactly_0 : forall a i c, Mat (RRepeatExactly 0 a) i c i c
| M_exactly_S : forall n a i c j c' k c'',
      Mat a i c j c' -> Mat (RRepeatExactly n a) j c' k c'' ->
      Mat (RRepeatExactly (S n) a) i c k c''
| M_atleast : forall n k a i c j c', n <= k ->
      Mat (RRepeatExactly k a) i c j c' -> Mat (RRepeatAtLeast n a) i c j c'
| M_between : forall n m k a i c j c', n <= k -> k <= m ->
      Mat (RRepeatExactly k a) i c j c' -> Mat (RRepeatAtLeastAtMost n m a) i c j c'
| M_capture : forall a i c j c', Mat a i (i, 0) j c' -> Mat (RCapture a) i c j (fst c', j)
| M_group : forall a i c j c', Mat a i c j c' -> Mat (RGroup a) i c j c'
| M_empty : forall i c, Mat REmpty i c i c
| M_vareq : forall v x i c, atom_var_eq v x -> Mat (RVarEq v x) i c i c
| M_varne : forall v x i c, atom_var_ne v x -> Mat (RNotVarEq v x) i c i c
| M_end : forall i c, i = length input -> Mat REndAnchor i c i c
| M_more : forall i c, i <> length input -> Mat RNotEndAnchor i c i c
| M_start : forall i c, at_start = true /\ i = 0 -> Mat RStartAnchor i c i c
| M_nstart : forall i c, ~ (at_start = true /\ i = 0) -> Mat RNotStartAnchor i c i c.

(** What a negated pattern matches: single characters and zero-width tests are complemented,
    in a string every character must differ, a variable must have another value, and of a
    compound pattern every part is negated in its place. *)
Definition zero_width (r : regexp) : Prop :=
  match r with
  | REmpty | RNever | REndAnchor | RNotEndAnchor | RStartAnchor | RNotStartAnchor => True
  | _ => False
  end.
Inductive Neg : regexp -> nat -> span -> nat -> span -> Prop :=
| N_class : forall cs i c, char_ok (fun a => negb (mem a cs)) i -> Neg (RClass cs) i c (S i) c
| N_string : forall s i c, chars_ok (map (fun e a => negb (N.eqb e a)) s) i -> Neg (RString s) i c (i + length s) c
| N_vareq : forall v x y i c, env v = Some y -> y <> x -> Neg (RVarEq v x) i c i c
| N_zero : forall r i c, zero_width r -> ~ Mat r i c i c -> Neg r i c i c
| N_concat : forall a b i c j c' k c'', Neg a i c j c' -> Neg b j c' k c'' -> Neg (RConcat a b) i c k c''
| N_left : forall a b i c j c', Neg a i c j c' -> Neg (REither a b) i c j c'
| N_right : forall a b i c j c', Neg b i c j c' -> Neg (REither a b) i c j c'
| N_opt_some : forall a i c j c', Neg a i c j c' -> Neg (ROptional a) i c j c'
| N_opt_none : forall a i c, Neg (ROptional a) i c i c
| N_star : forall a n i c j c', Neg (RRepeatExactly n a) i c j c' -> Neg (RZeroOrMore a) i c j c'
| N_plus : forall a n i c j c', Neg (RRepeatExactly (S n) a) i c j c' -> Neg (ROneOrMore a) i c j c'
| N_exactly_0 : forall a i c, Neg (RRepeatExactly 0 a) i c i c
| N_exactly_S : forall n a i c j c' k c'',
      Neg a i c j c' -> Neg (RRepeatExactly n a) j c' k c'' -> Neg (RRepeatExactly (S n) a) i c k c''
| N_atleast : forall n k a i c j c', n <= k -> Neg (RRepeatExactly k a) i c j c' -> Neg (RRepeatAtLeast n a) i c j c'
| N_between : forall n m k a i c j c', n <= k -> k <= m ->
      Neg (RRepeatExactly k a) i c j c' -> Neg (RRepeatAtLeastAtMost n m a) i c j c'
| N_group : forall a i c j c', Neg a i c j c' -> Neg (RGroup a) i c j c'.

(** Ordered (backtracking) semantics: the list of all ways [r] matches starting
    at [i], in order of preference: left alternative before right, one more
    iteration before stopping (greedy). *)
Definition outcome := (nat * span)%type.

Definition one (p : char -> bool) (i : nat) (c : span) : list outcome :=
  match nth_error input i with
  | Some a => if p a then [(S i, c)] else []
  | None => []
  end.

Definition test (b : bool) (i : nat) (c : span) : list outcome := if b then [(i, c)] else [].

Definition seq (f g : nat -> span -> list outcome) (i : nat) (c : span) : list outcome :=
  flat_map (fun o => g (fst o) (snd o)) (f i c).

Fixpoint seqs (fs : list (nat -> span -> list outcome)) : nat -> span -> list outcome :=
  match fs with
  | [] => fun i c => [(i, c)]
  | f :: r => seq f (seqs r)
  end.

Fixpoint times (n : nat) (f : nat -> span -> list outcome) : nat -> span -> list outcome :=
  match n with
  | 0 => fun i c => [(i, c)]
  | S n' => seq f (times n' f)
  end.

(** zero up to [k] iterations, as many as possible first *)
Fixpoint upto (k : nat) (f : nat -> span -> list outcome) : nat -> span -> list outcome :=
  match k with
  | 0 => fun i c => [(i, c)]
  | S k' => fun i c => seq f (upto k' f) i c ++ [(i, c)]
  end.

(** any number of iterations; when every iteration consumes at least one
    character, more iterations than there are characters left are impossible *)
Definition star (f : nat -> span -> list outcome) (i : nat) (c : span) : list outcome :=
  upto (S (length input - i)) f i c.

Fixpoint bt (r : regexp) : nat -> span -> list outcome :=
  match r with
  | RLiteral e => one (N.eqb e)
  | RAny => one (fun _ => true)
  | RClass cs => one (fun a => mem a cs)
  | RNotClass cs => one (fun a => negb (mem a cs))
  | RString s => seqs (map (fun e => one (N.eqb e)) s)
  | RNotString s => seqs (map (fun e => one (fun a => negb (N.eqb e a))) s)
  | RCIString s => seqs (map (fun e => one (ci_eq e)) s)
  | RConcat a b => seq (bt a) (bt b)
  | REither a b => fun i c => bt a i c ++ bt b i c
  | ROptional a => fun i c => bt a i c ++ [(i, c)]
  | RZeroOrMore a => star (bt a)
  | ROneOrMore a => seq (bt a) (star (bt a))
  | RRepeatExactly n a => times n (bt a)
  | RRepeatAtLeast n a => seq (times n (bt a)) (star (bt a))
  | RRepeatAtLeastAtMost n m a =>
      if Nat.leb n m then seq (times n (bt a)) (upto (m - n) (bt a)) else fun _ _ => []
  | RCapture a => fun i c => map (fun o => (fst o, (fst (snd o), fst o))) (bt a i (i, 0))
  | RGroup a => bt a
  | REmpty => test true
  | RVarEq v x => test (match env v with Some y => N.eqb y x | None => false end)
  | RNotVarEq v x => test (match env v with Some y => negb (N.eqb y x) | None => false end)
  | REndAnchor => fun i => test (Nat.eqb i (length input)) i
  | RNotEndAnchor => fun i => test (negb (Nat.eqb i (length input))) i
  | RStartAnchor => fun i => test (at_start && Nat.eqb i 0) i
  | RNotStartAnchor => fun i => test (negb (at_start && Nat.eqb i 0)) i
  | RNever => test false
  end.

End Spec.

(** A pattern that cannot match the empty string, by its shape. *)
Fixpoint consuming (r : regexp) : bool :=
  match r with
  | RLiteral _ | RAny | RClass _ | RNotClass _ | RNever => true
  | RString s | RNotString s | RCIString s => negb (Nat.eqb (length s) 0)
  | RConcat a b => consuming a || consuming b
  | REither a b => consuming a && consuming b
  | ROneOrMore a | RGroup a | RCapture a => consuming a
  | RRepeatExactly n a | RRepeatAtLeast n a | RRepeatAtLeastAtMost n _ a =>
      negb (Nat.eqb n 0) && consuming a
  | _ => false
  end.

(** All loop bodies consume at least one character. *)
Fixpoint loops_consume (r : regexp) : bool :=
  match r with
  | RConcat a b | REither a b => loops_consume a && loops_consume b
  | ROptional a | RCapture a | RGroup a | RRepeatExactly _ a => loops_consume a
  | RZeroOrMore a | ROneOrMore a | RRepeatAtLeast _ a => consuming a && loops_consume a
  | RRepeatAtLeastAtMost _ _ a => consuming a && loops_consume a
  | _ => true
  end.

(** No bounded range [{n,m}] occurs (see C21 for why ranges are special). *)
Fixpoint no_range (r : regexp) : bool :=
  match r with
  | RConcat a b | REither a b => no_range a && no_range b
  | ROptional a | RCapture a | RGroup a | RRepeatExactly _ a
  | RZeroOrMore a | ROneOrMore a | RRepeatAtLeast _ a => no_range a
  | RRepeatAtLeastAtMost _ _ _ => false
  | _ => true
  end.

(** What [{n,m}] is really compiled to: [n] copies, then any number of blocks of
    [m - n] copies. *)
Fixpoint as_compiled (r : regexp) : regexp :=
  match r with
  | RConcat a b => RConcat (as_compiled a) (as_compiled b)
  | REither a b => REither (as_compiled a) (as_compiled b)
  | ROptional a => ROptional (as_compiled a)
  | RZeroOrMore a => RZeroOrMore (as_compiled a)
  | ROneOrMore a => ROneOrMore (as_compiled a)
  | RRepeatExactly n a => RRepeatExactly n (as_compiled a)
  | RRepeatAtLeast n a => RRepeatAtLeast n (as_compiled a)
  | RRepeatAtLeastAtMost n m a =>
      RConcat (RRepeatExactly n (as_compiled a))
              (RZeroOrMore (RRepeatExactly (m - n) (as_compiled a)))
  | RCapture a => RCapture (as_compiled a)
  | RGroup a => RGroup (as_compiled a)
  | _ => r
  end.
