(** What can be seen in a trace of the main pass: its pieces and their positions. *)
From Verif Require Import Base RuleModel TranslationModel.

(** an opcode whose dots are put in as a sign and stand for no text *)
Definition indicator_opcode (r : rule) : bool :=
  match r with
  | RNumsign _ | RNonumsign _ _ | RBegcomp _ _ | REndcomp _ _ | RNocontractsign _ _ | RLetsign _
  | RCapsletter _ _ | RBegcapsword _ _ | REndcapsword _ _ | RBegcaps _ | REndcaps _ | RBegcapsphrase _ | REndcapsphrase _ _
  | REmphletter _ _ | RBegemph _ _ _ | REndemph _ _ _ | RBegemphword _ _ | REndemphword _ _ | RBegemphphrase _ _
  | REndemphphrase _ _ _ => true
  | _ => false
  end.
(** the dots of such an opcode *)
Definition sign_dots (r : rule) : option str :=
  match r with
  | RNumsign dots | RNonumsign dots _ | RBegcomp dots _ | REndcomp dots _ | RNocontractsign dots _ | RLetsign dots
  | RCapsletter dots _ | RBegcapsword dots _ | REndcapsword dots _ | RBegcaps dots | REndcaps dots | RBegcapsphrase dots
  | REndcapsphrase dots _ | REmphletter _ dots | RBegemph _ dots _ | REndemph _ dots _ | RBegemphword _ dots
  | REndemphword _ dots | RBegemphphrase _ dots | REndemphphrase _ dots _ => Some dots
  | _ => None
  end.
(** a piece that is a sign, put in before the text at its position *)
Definition is_sign (t : resolved) : bool :=
  (Nat.eqb (r_length t) 0 && match r_origin t with Some r => indicator_opcode r | None => false end)%bool.
(** the pieces made from the text *)
Definition text_pieces (out : list resolved) : list resolved := filter (fun t => negb (is_sign t)) out.
(** the position in the input behind a list of pieces *)
Definition position (a : list resolved) : nat := list_sum (map r_length a).
(** a piece starts or the text ends at [p] *)
Definition boundary (out : list resolved) (p : nat) : Prop := exists a b, out = a ++ b /\ position a = p.
(** the signs put in at [p] *)
Fixpoint signs_from (pos p : nat) (out : list resolved) : list resolved :=
  match out with
  | [] => []
  | t :: r => (if (Nat.eqb pos p && is_sign t)%bool then [t] else []) ++ signs_from (pos + r_length t) p r
  end.
Definition signs_put (out : list resolved) (p : nat) : list resolved := signs_from 0 p out.
(** opcodes *)
Definition is_comp6 (r : rule) : bool := match r with RComp6 _ _ => true | _ => false end.
Definition is_match (r : rule) : bool := match r with RMatch _ _ _ _ _ => true | _ => false end.
Definition is_context (r : rule) : bool := match r with RContext _ _ _ => true | _ => false end.
