(** The value of a pass variable, by the actions of the rules applied. *)
From Verif Require Import Base RuleModel TranslationModel.

(** The assignments written in the action of a rule, in order. *)
Definition action_of (r : rule) : list action_instr :=
  match r with
  | RCorrect _ a _ | RPass2 _ a _ | RPass3 _ a _ | RPass4 _ a _ | RContext _ a _ => a
  | _ => []
  end.
Definition assignments_in (l : list action_instr) : list (N * N) :=
  flat_map (fun a => match a with ActAssignment v x => [(v, x)] | _ => [] end) l.
(** The assignments made by the pieces of a pass. *)
Definition assignments_of (l : list resolved) : list (N * N) :=
  flat_map (fun t => match r_origin t with Some r => assignments_in (action_of r) | None => [] end) l.
(** [v] has value [x] behind the assignments [l]: [x] was assigned and nothing after it. *)
Definition holds (l : list (N * N)) (v x : N) : Prop :=
  exists l1 l2, l = l1 ++ (v, x) :: l2 /\ forall y, ~ In (v, y) l2.
Definition unset (l : list (N * N)) (v : N) : Prop := forall y, ~ In (v, y) l.
(** The variables [e] are those behind the assignments [l]. *)
Definition values_of (l : list (N * N)) (e : env) : Prop :=
  forall v, match env_get e v with Some x => holds l v x | None => unset l v end.

(** The value of variable [v] behind any sequence of assignments, increments and decrements
    (the last two cannot be written in a table, see C58): an unset variable counts as 0, and
    0 does not go down. *)
Definition number_of (x : option N) : N := match x with Some y => y | None => 0%N end.
Inductive value_after (v : N) : list effect -> option N -> Prop :=
| after_nothing : value_after v [] None
| after_other l x f : ef_slot f <> v -> value_after v l x -> value_after v (l ++ [f]) x
| after_set l y : value_after v (l ++ [mk_effect v (SetTo y)]) (Some y)
| after_increment l x : value_after v l x -> (number_of x < 255)%N ->
    value_after v (l ++ [mk_effect v Increment]) (Some (number_of x + 1))%N
| after_decrement l x : value_after v l x -> value_after v (l ++ [mk_effect v Decrement]) (Some (N.pred (number_of x))).
(** A variable is to go beyond 255 somewhere in [l]. *)
Definition overflows (l : list effect) : Prop :=
  exists l1 l2 v x, l = l1 ++ mk_effect v Increment :: l2 /\ value_after v l1 (Some x) /\ (255 <= x)%N.
