(** Rules that can stand in a table twice. *)
From Verif Require Import Base RuleModel TranslationModel.

(** opcodes without precedence over others *)
Definition weak (r : rule) : bool :=
  match r with
  | RSyllable _ _ | RLargesign _ _ | RPartword _ _ _ _ | RPrfword _ _ _ _ | RLowword _ _ _ | RComp6 _ _ => true
  | _ => false
  end.
(** an always rule without conditions *)
Definition plain_always (r : rule) : bool :=
  match r with RAlways _ _ _ [] => true | _ => false end.
