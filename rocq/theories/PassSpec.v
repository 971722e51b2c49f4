(** A correct, pass2, pass3 or pass4 pass described by its pieces.

    [a] is the list of the pieces put out so far.  How far the text has been read, the
    values of the variables, the insertions already made and the offers kept for a later
    position are functions of that list; [chosen_next] says which piece may be next. *)
From Verif Require Import Base RuleModel TranslationModel PatternModel LoopModel.

Section Spec.
Variable lower : char -> list char.
Variable st : stage.
Variable input : str.

(** how many characters the pieces stand for *)
Definition stood_for (a : list resolved) : nat := length (flat_map r_input a).
(** the variables: the assignments of the rules applied, in order *)
Definition assigned (a : list resolved) (e : env) : Prop :=
  env_apply_all env_new (flat_map r_effects a) = Ok e.
(** the insertions made since a rule last replaced some text *)
Definition insertions (a : list resolved) : list subset :=
  fold_left (fun acc t => if Nat.eqb (r_length t) 0 then subset_of t :: acc
                          else match r_origin t with None => acc | Some _ => [] end) a [].
(** what one of the rules [ps] finds in the text behind [a], there or further on *)
Definition finds (ps : list cpat) (a : list resolved) (u : resolved) : Prop :=
  exists e p, assigned a e /\ In p ps /\
    cpat_find lower p e (Nat.eqb (stood_for a) 0) (skipn (stood_for a) input) = Ok (Some u).
(** not yet inserted *)
Definition not_made (a : list resolved) (u : resolved) : Prop := ~ In (subset_of u) (insertions a).
(** found for the position reached *)
Definition direct (ps : list cpat) (a : list resolved) (u : resolved) : Prop :=
  finds ps a u /\ r_offset u = 0 /\ not_made a u.
(** found earlier for the position now reached, to which a piece that replaced some text has
    led *)
Definition held (ps : list cpat) (a : list resolved) (u : resolved) : Prop :=
  (exists b c y v, a = b ++ c ++ [y] /\ 0 < r_length y /\ finds ps b v /\ 0 < r_offset v /\
    stood_for (c ++ [y]) = r_offset v /\ u = with_offset v 0) /\ not_made a u.
(** Of all that is offered the one with the greatest weight is chosen; of several, one
    found earlier, and otherwise that of the last of the rules.  If nothing is offered, a
    character is copied. *)
Definition chosen_next (ps : list cpat) (a : list resolved) (t : resolved) : Prop :=
  (forall u, direct ps a u \/ held ps a u -> r_weight u <= r_weight t) /\
  (held ps a t \/
   (forall u, held ps a u -> r_weight u < r_weight t) /\
   exists l1 p l2, ps = l1 ++ p :: l2 /\ direct [p] a t /\ forall u, direct l2 a u -> r_weight u < r_weight t)
  \/
  (forall u, ~ direct ps a u /\ ~ held ps a u) /\
  exists c r, skipn (stood_for a) input = c :: r /\ t = resolved_new [c] [c] 1 st None.
Definition pass_over (ps : list cpat) (a : list resolved) : Prop :=
  stood_for a = length input /\ forall u, ~ direct ps a u /\ ~ held ps a u.
End Spec.

(** Backward, a rule whose action writes no text of its own takes no part in a pass. *)
Definition takes_part (d : direction) (action : list action_instr) : Prop :=
  d = Backward -> exists s, In (ActString s) action \/ In (ActDots s) action.
