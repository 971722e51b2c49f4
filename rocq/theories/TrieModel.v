(** Model of src/translator/trie.rs.

    Simplifications: [ResolvedTransition::Any] is never constructed by [insert], so it
    and the branch that looks for it are left out.  [HashMap] children are a list; the
    iteration order of a [HashMap] is unspecified, which [shuffle] (at the end)
    models: a compiled trie is the result of the insertions with the children of every
    node in some unknown order. *)
From Coq Require Import Permutation.
From Verif Require Import Base RuleModel TranslationModel TableModel.

(** trie.rs:14-22 [ResolvedClasses]. *)
Record rclasses := mk_rclasses { rc_chars : list char; rc_space : bool }.

(** trie.rs:25-36 [resolve]. *)
Definition rc_resolve (ctx : classes) (ks : list class) : rclasses :=
  mk_rclasses
    (sort_dedup (flat_map (fun k => match cls_get ctx k with Some l => l | None => [] end) ks))
    (existsb (class_eqb CSpace) ks).

(** trie.rs:38-43 [matches]; the binary search in the sorted vector is membership. *)
Definition rc_matches (rc : rclasses) (c : option char) : bool :=
  match c with Some c => mem c (rc_chars rc) | None => rc_space rc end.

(** trie.rs:46-57 [Transition]. *)
Inductive transition := TrStart (ks : list class) | TrEnd (ks : list class).
(** trie.rs:59-68 [ResolvedTransition]. *)
Inductive edge := ECh (c : char) | EStart (rc : rclasses) | EEnd (rc : rclasses).
(** Derived [PartialEq] of [ResolvedClasses] and [ResolvedTransition]. *)
Definition rc_eqb (a b : rclasses) : bool :=
  list_eqb N.eqb (rc_chars a) (rc_chars b) && Bool.eqb (rc_space a) (rc_space b).
Definition edge_eqb (a b : edge) : bool :=
  match a, b with
  | ECh x, ECh y => N.eqb x y
  | EStart x, EStart y => rc_eqb x y
  | EEnd x, EEnd y => rc_eqb x y
  | _, _ => false
  end.
(** trie.rs:70-77 [ClassConstraint]. *)
Inductive class_constraint := KStart (k : class) | KEnd (k : class).

(** trie.rs:79-83 [TrieNode]. *)
Inductive node := Node (t : option resolved) (ts : list (edge * node)).
Definition node_empty : node := Node None [].

(** trie.rs:120-129 [resolve_transition]. *)
Definition resolve_transition (ctx : classes) (t : transition) : edge :=
  match t with
  | TrStart ks => EStart (rc_resolve ctx ks)
  | TrEnd ks => EEnd (rc_resolve ctx ks)
  end.

(** The arguments of [insert] (trie.rs:155-166). *)
Record ins_args := mk_ins {
  i_from : str; i_to : str; i_before : option transition; i_after : option transition;
  i_prec : precedence; i_constraints : list class_constraint; i_stage : stage; i_origin : origin }.

(** trie.rs:168-171: [from] and [to] are swapped for backward translation. *)
Definition ins_from (d : direction) (a : ins_args) : str :=
  match d with Forward => i_from a | Backward => i_to a end.
Definition ins_to (d : direction) (a : ins_args) : str :=
  match d with Forward => i_to a | Backward => i_from a end.

Definition opt_list {A} (o : option A) : list A := match o with Some a => [a] | None => [] end.

(** trie.rs:183-232: the path of transitions, in the order in which they are entered. *)
Definition ins_path (ctx : classes) (d : direction) (a : ins_args) : list edge :=
  flat_map (fun k => match k with KStart c => [EStart (rc_resolve ctx [c])] | KEnd _ => [] end)
           (i_constraints a)
  ++ map (resolve_transition ctx) (opt_list (i_before a))
  ++ map ECh (ins_from d a)
  ++ map (resolve_transition ctx) (opt_list (i_after a))
  ++ flat_map (fun k => match k with KEnd c => [EEnd (rc_resolve ctx [c])] | KStart _ => [] end)
              (i_constraints a).

(** [length]: characters plus one per non-consuming check, i.e. per transition. *)
Definition ins_weight (ctx : classes) (d : direction) (a : ins_args) : nat :=
  length (ins_path ctx d a).

(** trie.rs:234-265: what is stored in the node reached. *)
Definition ins_value (compat : bool) (ctx : classes) (d : direction) (a : ins_args)
           (old : option resolved) : option resolved :=
  let full := resolved_new (ins_from d a) (ins_to d a) (ins_weight ctx d a) (i_stage a) (i_origin a) in
  match old with
  | Some t =>
      if prec_gt (i_prec a) (r_prec t) then
        Some (resolved_new (ins_from d a) (ins_to d a) (length (ins_from d a)) (i_stage a) (i_origin a))
      else if compat then Some t
      else Some full
  | None => Some full
  end.

(** [entry(t).or_default()] along the path, then the update of the last node. *)
Fixpoint node_update (f : option resolved -> option resolved) (path : list edge) : node -> node :=
  match path with
  | [] => fun n => match n with Node t ts => Node (f t) ts end
  | e :: p => fun n =>
      match n with
      | Node t ts =>
          Node t ((fix go (l : list (edge * node)) : list (edge * node) :=
                     match l with
                     | [] => [(e, node_update f p node_empty)]
                     | (e', ch) :: r => if edge_eqb e e' then (e', node_update f p ch) :: r
                                        else (e', ch) :: go r
                     end) ts)
      end
  end.

(** trie.rs:155-266 [insert]; panics on an empty [from].  trie.rs:130-153 [insert_char] is the
    same for a text of one character without boundary conditions. *)
Definition trie_insert (compat : bool) (ctx : classes) (d : direction) (n : node) (a : ins_args)
  : tres node :=
  match ins_from d a with
  | [] => TPanic
  | _ => TOk (node_update (ins_value compat ctx d a) (ins_path ctx d a) n)
  end.
Section Find.
(** [char::to_lowercase] of the Rust standard library: the characters it yields. *)
Variable lower : char -> list char.

(** trie.rs:86-97 [char_transition]: the edge label looked for. *)
Definition single_lower (c : char) : option char :=
  match lower c with [x] => Some x | _ => None end.

(** trie.rs:268-339 [find_translations_from_node].  (The slice [&input[bytes..]] is
    the rest of the characters; [match_length] is not used.) *)
Fixpoint find_from (n : node) (input : str) (prev : option char) : list resolved :=
  match n with
  | Node t ts =>
      opt_list t ++
      (match input with
       | c :: rest =>
           match single_lower c with
           | Some x =>
               (fix look (l : list (edge * node)) : list resolved :=
                  match l with
                  | [] => []
                  | (e, ch) :: r => if edge_eqb (ECh x) e then find_from ch rest (Some c) else look r
                  end) ts
           | None => []
           end
       | [] => []
       end) ++
      (fix go (l : list (edge * node)) : list resolved :=
         match l with
         | [] => []
         | (EStart rc, ch) :: r =>
             (if rc_matches rc prev then find_from ch input prev else []) ++ go r
         | (EEnd rc, ch) :: r =>
             (if rc_matches rc (hd_error input) then find_from ch input prev else []) ++ go r
         | (ECh _, _) :: r => go r
         end) ts
  end.
(** trie.rs:341-343 [find_translations]. *)
Definition find_translations (n : node) (input : str) (prev : option char) : list resolved :=
  find_from n input prev.
End Find.

(** Insertion of a whole list of rules. *)
Fixpoint trie_insert_all (compat : bool) (ctx : classes) (d : direction) (n : node)
         (l : list ins_args) : tres node :=
  match l with
  | [] => TOk n
  | a :: r => tdo n' <- trie_insert compat ctx d n a; trie_insert_all compat ctx d n' r
  end.

(** [shuffle n n']: the same trie with the children of each node iterated in another order. *)
Inductive shuffle : node -> node -> Prop :=
| sh_node t ts ts' us :
    Forall2 (fun p q => fst p = fst q /\ shuffle (snd p) (snd q)) ts ts' ->
    Permutation ts' us -> shuffle (Node t ts) (Node t us).
