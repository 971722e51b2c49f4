(** Base definitions shared by all models: characters, strings, UTF-8 byte
    offsets, byte slicing with its panics, and the result type.

    A Rust [char] is a Unicode scalar value; it is modelled by its code point
    in [N].  A Rust [&str]/[String] is modelled by the list of its chars.
    Byte offsets into strings are modelled explicitly (a slice that does not
    fall on character boundaries panics in Rust). *)
From Coq Require Export List Arith NArith Bool Lia.
Export ListNotations.

Definition char := N.
Definition str := list N.

(** Result of a computation that may panic.  [OutOfFuel] is an artefact of the
    model (fuelled loops); theorems exclude it explicitly. *)
Inductive res (A : Type) : Type :=
| Ok (a : A)
| Panic
| OutOfFuel.
Arguments Ok {A} a.
Arguments Panic {A}.
Arguments OutOfFuel {A}.

Definition bind {A B} (x : res A) (f : A -> res B) : res B :=
  match x with
  | Ok a => f a
  | Panic => Panic
  | OutOfFuel => OutOfFuel
  end.
Notation "'do' x <- e ; f" := (bind e (fun x => f))
  (at level 60, x pattern, e at level 59, right associativity).

(** [char::len_utf8] of the Rust standard library. *)
Definition len_utf8 (c : char) : nat :=
  if N.ltb c 128 then 1
  else if N.ltb c 2048 then 2
  else if N.ltb c 65536 then 3
  else 4.

(** [str::len]: number of UTF-8 bytes. *)
Fixpoint blen (s : str) : nat :=
  match s with
  | [] => 0
  | c :: r => len_utf8 c + blen r
  end.

(** [&s[b..]]: [None] is the panic (out of range or inside a character). *)
Fixpoint slice_from (s : str) (b : nat) : option str :=
  match b with
  | 0 => Some s
  | _ => match s with
         | [] => None
         | c :: r => if Nat.leb (len_utf8 c) b then slice_from r (b - len_utf8 c) else None
         end
  end.

(** [&s[..b]]: [None] is the panic. *)
Fixpoint slice_to (s : str) (b : nat) : option str :=
  match b with
  | 0 => Some []
  | _ => match s with
         | [] => None
         | c :: r => if Nat.leb (len_utf8 c) b
                     then option_map (cons c) (slice_to r (b - len_utf8 c))
                     else None
         end
  end.

(** [&s[a..b]]: panics if [a > b] or either end is not a char boundary. *)
Definition slice (s : str) (a b : nat) : option str :=
  if Nat.leb a b then
    match slice_from s a with
    | Some r => slice_to r (b - a)
    | None => None
    end
  else None.

(** Byte offset of the character index [i] (not a Rust function; used in
    statements to name the byte offsets that correspond to character indices). *)
Definition boff (s : str) (i : nat) : nat := blen (firstn i s).

(** Membership test on the lists that model [HashSet<char>]. *)
Definition mem (c : char) (l : list char) : bool := existsb (N.eqb c) l.

(** Association lists that model [HashMap]: first hit wins, so inserting at the
    front overwrites. *)
Fixpoint assoc {A} (k : N) (l : list (N * A)) : option A :=
  match l with
  | [] => None
  | (k', v) :: r => if N.eqb k k' then Some v else assoc k r
  end.

Definition opt_res {A} (o : option A) : res A :=
  match o with Some a => Ok a | None => Panic end.

(** Equality test on lists ([PartialEq] of [String] and [Vec]). *)
Fixpoint list_eqb {A} (eqb : A -> A -> bool) (a b : list A) : bool :=
  match a, b with
  | [], [] => true
  | x :: a', y :: b' => eqb x y && list_eqb eqb a' b'
  | _, _ => false
  end.
Definition str_eqb : str -> str -> bool := list_eqb N.eqb.

(** [sort_unstable] followed by [dedup] (trie.rs:30-31); also the
    canonical list of the members of a [HashSet<char>]. *)
Fixpoint sort_insert (c : char) (l : list char) : list char :=
  match l with
  | [] => [c]
  | x :: r => if N.ltb c x then c :: l else if N.eqb c x then l else x :: sort_insert c r
  end.
Definition sort_dedup (l : list char) : list char := fold_right sort_insert [] l.
