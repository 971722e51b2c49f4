(** The lines of a table and the words of a line. *)
From Coq Require Import List.
From Verif Require Import Base RuleModel.

(** [is_line text n l]: [l] is the n-th line of the text.  A line ends before a line feed,
    together with a carriage return in front of it, or at the end of the text. *)
Definition is_line (text : str) (n : nat) (l : str) : Prop :=
  exists before raw after, text = before ++ raw ++ after /\
    (before = [] \/ exists b, before = b ++ [10%N]) /\ n = S (count_occ N.eq_dec before 10%N) /\ ~ In 10%N raw /\
    ((after = [] /\ raw <> [] /\ l = raw) \/
     (exists a, after = 10%N :: a) /\ (raw = l ++ [13%N] \/ (l = raw /\ forall r, raw <> r ++ [13%N]))).
(** neither a comment nor empty *)
Definition rule_line (ws : char -> bool) (l : str) : Prop :=
  exists space c rest, l = space ++ c :: rest /\ Forall (fun x => ws x = true) space /\ ws c = false /\ c <> 35%N.
(** words separated by tabs, line feeds, form feeds, carriage returns and spaces *)
Definition blank (c : char) : Prop := In c [9; 10; 12; 13; 32]%N.
Inductive words : str -> list str -> Prop :=
| w_none g : Forall blank g -> words g []
| w_last g w : Forall blank g -> w <> [] -> Forall (fun c => ~ blank c) w -> words (g ++ w) [w]
| w_word g w c rest ts : Forall blank g -> w <> [] -> Forall (fun c => ~ blank c) w -> blank c ->
    words (c :: rest) ts -> words (g ++ w ++ c :: rest) (w :: ts).
(** numbers that increase *)
Fixpoint increasing (l : list nat) : Prop :=
  match l with
  | [] => True
  | n :: r => Forall (fun m => n < m) r /\ increasing r
  end.
