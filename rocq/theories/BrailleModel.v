(** Model of src/parser/braille.rs. *)
From Verif Require Import Base TranslationModel.

(** braille.rs:11-29 [BrailleDot]: dots 0..15 (Dot0, Dot1, ..., Dot9, DotA, ..., DotF). *)
Definition dot := N.
Definition all_dots : list dot := [0;1;2;3;4;5;6;7;8;9;10;11;12;13;14;15]%N.

(** braille.rs:31-52 [to_hex]: Dot0 contributes nothing, dot d the bit d-1. *)
Definition dot_hex (d : dot) : N :=
  match d with
  | 0 => 0x0 | 1 => 0x1 | 2 => 0x2 | 3 => 0x4 | 4 => 0x8 | 5 => 0x10 | 6 => 0x20 | 7 => 0x40
  | 8 => 0x80 | 9 => 0x100 | 10 => 0x200 | 11 => 0x400 | 12 => 0x800 | 13 => 0x1000
  | 14 => 0x2000 | 15 => 0x4000 | _ => 0
  end%N.

(** braille.rs:54-80 [TryFrom<char> for BrailleDot]: '0'..'9', 'a'..'f'; the error
    carries the offending character. *)
Inductive parsed (A : Type) := POk (a : A) | PInvalid (c : option char).
Arguments POk {A} a. Arguments PInvalid {A} c.
Definition dot_of_char (c : char) : parsed dot :=
  match c with
  | 48 => POk 0 | 49 => POk 1 | 50 => POk 2 | 51 => POk 3 | 52 => POk 4 | 53 => POk 5
  | 54 => POk 6 | 55 => POk 7 | 56 => POk 8 | 57 => POk 9
  | 97 => POk 10 | 98 => POk 11 | 99 => POk 12 | 100 => POk 13 | 101 => POk 14 | 102 => POk 15
  | _ => PInvalid (Some c)
  end%N.

(** braille.rs:82-83 [BrailleChar] is an [EnumSet]: modelled as a predicate list, the
    sorted list of its elements (EnumSet iterates in order of declaration). *)
Definition cell := list dot.
(** [EnumSet::from_iter]. *)
Definition cell_of (ds : list dot) : cell := filter (fun d => mem d ds) all_dots.

(** braille.rs:92-103 [has_virtual_dots]. *)
Definition has_virtual (c : cell) : bool := existsb (fun d => N.leb 9 d) c.

(** braille.rs:105-117 [to_unicode]; [char::from_u32(..).unwrap()] panics when the value is not
    a scalar value. *)
Definition is_scalar (v : N) : bool :=
  (N.ltb v 0xD800 || (N.leb 0xE000 v && N.ltb v 0x110000))%bool.
Definition char_from_u32 (v : N) : option char := if is_scalar v then Some v else None.
Definition to_unicode (c : cell) : res char :=
  let plane := if has_virtual c then 0xF0000%N else 0x2800%N in
  opt_res (char_from_u32 (fold_left N.lor (map dot_hex c) plane)).

(** [collect::<Result<_, _>>]: the first error, or all values. *)
Fixpoint collect {A B} (f : A -> parsed B) (l : list A) : parsed (list B) :=
  match l with
  | [] => POk []
  | x :: r => match f x with
              | POk y => match collect f r with POk ys => POk (y :: ys) | PInvalid c => PInvalid c end
              | PInvalid c => PInvalid c
              end
  end.

(** braille.rs:126-142 [TryFrom<&str> for BrailleChar]. *)
Definition cell_of_str (s : str) : parsed cell :=
  match s with
  | [] => PInvalid None
  | _ => match collect dot_of_char s with POk ds => POk (cell_of ds) | PInvalid c => PInvalid c end
  end.

(** [str::split(sep)] for a single character. *)
Fixpoint split_on (sep : char) (s : str) : list str :=
  match s with
  | [] => [[]]
  | c :: r => if N.eqb c sep then [] :: split_on sep r
              else match split_on sep r with
                   | [] => [[c]]
                   | p :: ps => (c :: p) :: ps
                   end
  end.

(** braille.rs:163-169 [TryFrom<&str> for BrailleChars]. *)
Definition cells_of_str (s : str) : parsed (list cell) := collect cell_of_str (split_on 45%N s).

(** braille.rs:171-179 [Display for BrailleChars]. *)
Fixpoint cells_to_string (cs : list cell) : res str :=
  match cs with
  | [] => Ok []
  | c :: r => do u <- to_unicode c; do s <- cells_to_string r; Ok (u :: s)
  end.

(** braille.rs:197-248 [fallback]: NABCC cells; [unwrap] panics for other characters. *)
Definition nabcc : list (char * cell) :=
  [ (48, [3;5;6]); (49, [2]); (50, [2;3]); (51, [2;5]); (52, [2;5;6]); (53, [2;6]);
    (54, [2;3;5]); (55, [2;3;5;6]); (56, [2;3;6]); (57, [2;5]);
    (97, [1]); (98, [1;2]); (99, [1;4]); (100, [1;4;5]); (101, [1;5]); (102, [1;2;4]);
    (92, [1;2;5;6]); (120, [1;3;4;6]) ]%N.
Definition fallback (ch : char) : res char :=
  match assoc ch nabcc with Some c => to_unicode c | None => Panic end.
