(** When the iteration order of the hash maps in a compiled table can matter: two rules of
    the same weight apply at one place, and their conditions and letters, in the order in
    which they are checked, part with two different conditions on a neighbouring character. *)
From Verif Require Import Base RuleModel TranslationModel TableModel TrieModel TrieProofs.

Definition condition (e : edge) : Prop := match e with ECh _ => False | EStart _ | EEnd _ => True end.
Definition part_ways (p q : list edge) : Prop :=
  exists common e f p' q', p = common ++ e :: p' /\ q = common ++ f :: q' /\ e <> f /\ condition e /\ condition f.
(** no two of the entries [l] in force that apply at one place of the text and weigh the
    same part that way *)
Definition untied (compat : bool) (ctx : classes) (d : direction) (lower : char -> list char) (l : list ins_args) (input : str) : Prop :=
  forall q prev f a g b,
    in_force compat ctx d l f a -> applies lower ctx d a (skipn q input) prev ->
    in_force compat ctx d l g b -> applies lower ctx d b (skipn q input) prev ->
    r_weight (offer ctx d f a) = r_weight (offer ctx d g b) ->
    ~ part_ways (ins_path ctx d a) (ins_path ctx d b).
