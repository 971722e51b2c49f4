(** Generated by tools/conformance.py from the unit tests of src/translator/regexp.rs: do not edit. *)
From Verif Require Import Base RuleModel TranslationModel ConfBase RegexpModel.

Definition cf_is_match (t : option regexp * list (N * N) * str * bool) : bool :=
  match t with
  | (Some r, e, input, b) =>
      match regexp_find cf_lower r (fun v => option_map snd (find (fun p => N.eqb v (fst p)) e)) true input with
      | Ok (Some _) => b
      | Ok None => negb b
      | _ => false
      end
  | _ => false
  end.
(** src/translator/regexp.rs: character *)
Example regexp_character :
  forallb (fun t => cf_is_match t)
    [(Some (RLiteral 97%N), [], [97]%N, true);
     (Some (RLiteral 97%N), [], [98]%N, false)] = true.
Proof. vm_compute. reflexivity. Qed.
(** src/translator/regexp.rs: alteration *)
Example regexp_alteration :
  forallb (fun t => cf_is_match t)
    [(Some (REither (RLiteral 97%N) (RLiteral 98%N)), [], [97]%N, true);
     (Some (REither (RLiteral 97%N) (RLiteral 98%N)), [], [98]%N, true);
     (Some (REither (RLiteral 97%N) (RLiteral 98%N)), [], [97; 98]%N, true);
     (Some (REither (RLiteral 97%N) (RLiteral 98%N)), [], [99]%N, false)] = true.
Proof. vm_compute. reflexivity. Qed.
(** src/translator/regexp.rs: multiple_alterations *)
Example regexp_multiple_alterations :
  forallb (fun t => cf_is_match t)
    [(Some (REither (RLiteral 97%N) (REither (RLiteral 98%N) (RLiteral 99%N))), [], [97]%N, true);
     (Some (REither (RLiteral 97%N) (REither (RLiteral 98%N) (RLiteral 99%N))), [], [98]%N, true);
     (Some (REither (RLiteral 97%N) (REither (RLiteral 98%N) (RLiteral 99%N))), [], [97; 98]%N, true);
     (Some (REither (RLiteral 97%N) (REither (RLiteral 98%N) (RLiteral 99%N))), [], [99]%N, true);
     (Some (REither (RLiteral 97%N) (REither (RLiteral 98%N) (RLiteral 99%N))), [], [100]%N, false)] = true.
Proof. vm_compute. reflexivity. Qed.
(** src/translator/regexp.rs: concatenation *)
Example regexp_concatenation :
  forallb (fun t => cf_is_match t)
    [(Some (RConcat (RLiteral 97%N) (RLiteral 98%N)), [], [97; 98]%N, true);
     (Some (RConcat (RLiteral 97%N) (RLiteral 98%N)), [], [97; 98; 99]%N, true);
     (Some (RConcat (RLiteral 97%N) (RLiteral 98%N)), [], [97]%N, false);
     (Some (RConcat (RLiteral 97%N) (RLiteral 98%N)), [], [98]%N, false);
     (Some (RConcat (RLiteral 97%N) (RLiteral 98%N)), [], [98; 97]%N, false);
     (Some (RConcat (RLiteral 97%N) (RLiteral 98%N)), [], [99]%N, false)] = true.
Proof. vm_compute. reflexivity. Qed.
(** src/translator/regexp.rs: zero_width_loop_body_is_bounded *)
Example regexp_zero_width_loop_body_is_bounded :
  forallb (fun t => cf_is_match t)
    [(Some (RZeroOrMore REmpty), [], [], true);
     (Some (ROneOrMore REmpty), [], [], true);
     (Some (RRepeatAtLeast 2 REmpty), [], [], true)] = true.
Proof. vm_compute. reflexivity. Qed.
(** src/translator/regexp.rs: kleene *)
Example regexp_kleene :
  forallb (fun t => cf_is_match t)
    [(Some (RZeroOrMore (RLiteral 97%N)), [], [], true);
     (Some (RZeroOrMore (RLiteral 97%N)), [], [97]%N, true);
     (Some (RZeroOrMore (RLiteral 97%N)), [], [97; 97]%N, true);
     (Some (RZeroOrMore (RLiteral 97%N)), [], [97; 97; 97; 97; 97]%N, true);
     (Some (RZeroOrMore (RLiteral 97%N)), [], [98]%N, true);
     (Some (RZeroOrMore (RLiteral 97%N)), [], [98; 97]%N, true);
     (Some (RZeroOrMore (RLiteral 97%N)), [], [97; 98]%N, true);
     (Some (RZeroOrMore (RLiteral 97%N)), [], [99]%N, true);
     (Some (RZeroOrMore (RLiteral 97%N)), [], [97; 98; 99]%N, true)] = true.
Proof. vm_compute. reflexivity. Qed.
(** src/translator/regexp.rs: one_or_more *)
Example regexp_one_or_more :
  forallb (fun t => cf_is_match t)
    [(Some (ROneOrMore (RLiteral 97%N)), [], [], false);
     (Some (ROneOrMore (RLiteral 97%N)), [], [97]%N, true);
     (Some (ROneOrMore (RLiteral 97%N)), [], [97; 97]%N, true);
     (Some (ROneOrMore (RLiteral 97%N)), [], [97; 98]%N, true);
     (Some (ROneOrMore (RLiteral 97%N)), [], [97; 98; 99]%N, true);
     (Some (ROneOrMore (RLiteral 97%N)), [], [97; 97; 97; 97; 97]%N, true);
     (Some (ROneOrMore (RLiteral 97%N)), [], [98]%N, false);
     (Some (ROneOrMore (RLiteral 97%N)), [], [98; 97]%N, false);
     (Some (ROneOrMore (RLiteral 97%N)), [], [99]%N, false)] = true.
Proof. vm_compute. reflexivity. Qed.
(** src/translator/regexp.rs: any *)
Example regexp_any :
  forallb (fun t => cf_is_match t)
    [(Some RAny, [], [97; 98; 98]%N, true)] = true.
Proof. vm_compute. reflexivity. Qed.
(** src/translator/regexp.rs: negate_any *)
Example regexp_negate_any :
  forallb (fun t => cf_is_match t)
    [(negate RAny, [], [97]%N, false);
     (negate RAny, [], [], false)] = true.
Proof. vm_compute. reflexivity. Qed.
(** src/translator/regexp.rs: optional *)
Example regexp_optional :
  forallb (fun t => cf_is_match t)
    [(Some (RConcat (ROptional (RConcat (RLiteral 97%N) RAny)) (RLiteral 98%N)), [], [97; 99; 98]%N, true);
     (Some (RConcat (ROptional (RConcat (RLiteral 97%N) RAny)) (RLiteral 98%N)), [], [97; 120; 98]%N, true);
     (Some (RConcat (ROptional (RConcat (RLiteral 97%N) RAny)) (RLiteral 98%N)), [], [98]%N, true);
     (Some (RConcat (ROptional (RConcat (RLiteral 97%N) RAny)) (RLiteral 98%N)), [], [98; 98; 98]%N, true);
     (Some (RConcat (ROptional (RConcat (RLiteral 97%N) RAny)) (RLiteral 98%N)), [], [99]%N, false)] = true.
Proof. vm_compute. reflexivity. Qed.
(** src/translator/regexp.rs: character_class *)
Example regexp_character_class :
  forallb (fun t => cf_is_match t)
    [(Some (ROneOrMore (RClass [97; 98; 99]%N)), [], [97; 99; 98]%N, true);
     (Some (ROneOrMore (RClass [97; 98; 99]%N)), [], [97; 120; 98]%N, true);
     (Some (ROneOrMore (RClass [97; 98; 99]%N)), [], [98]%N, true);
     (Some (ROneOrMore (RClass [97; 98; 99]%N)), [], [98; 98; 98]%N, true);
     (Some (ROneOrMore (RClass [97; 98; 99]%N)), [], [99]%N, true);
     (Some (ROneOrMore (RClass [97; 98; 99]%N)), [], [120]%N, false)] = true.
Proof. vm_compute. reflexivity. Qed.
(** src/translator/regexp.rs: repeat_exactly *)
Example regexp_repeat_exactly :
  forallb (fun t => cf_is_match t)
    [(Some (RRepeatExactly 1 (RLiteral 97%N)), [], [97]%N, true);
     (Some (RRepeatExactly 1 (RLiteral 97%N)), [], [99]%N, false);
     (Some (RRepeatExactly 1 (RLiteral 97%N)), [], [98; 98; 98]%N, false);
     (Some (RRepeatExactly 1 (RLiteral 97%N)), [], [], false);
     (Some (RRepeatExactly 1 (RLiteral 97%N)), [], [97; 97]%N, true);
     (Some (RRepeatExactly 1 (RLiteral 97%N)), [], [97; 97; 97; 97]%N, true);
     (Some (RRepeatExactly 2 (RLiteral 97%N)), [], [97; 97]%N, true);
     (Some (RRepeatExactly 2 (RLiteral 97%N)), [], [99]%N, false);
     (Some (RRepeatExactly 2 (RLiteral 97%N)), [], [98; 98; 98]%N, false);
     (Some (RRepeatExactly 2 (RLiteral 97%N)), [], [], false);
     (Some (RRepeatExactly 2 (RLiteral 97%N)), [], [97]%N, false);
     (Some (RRepeatExactly 2 (RLiteral 97%N)), [], [97; 97; 97]%N, true);
     (Some (RRepeatExactly 2 (RLiteral 97%N)), [], [97; 97; 97; 97]%N, true);
     (Some (RRepeatExactly 3 (RLiteral 97%N)), [], [97; 97; 97]%N, true);
     (Some (RRepeatExactly 3 (RLiteral 97%N)), [], [99]%N, false);
     (Some (RRepeatExactly 3 (RLiteral 97%N)), [], [98; 98; 98]%N, false);
     (Some (RRepeatExactly 3 (RLiteral 97%N)), [], [97]%N, false);
     (Some (RRepeatExactly 3 (RLiteral 97%N)), [], [97; 97]%N, false);
     (Some (RRepeatExactly 3 (RLiteral 97%N)), [], [97; 97; 97; 97]%N, true)] = true.
Proof. vm_compute. reflexivity. Qed.
(** src/translator/regexp.rs: repeat_at_least *)
Example regexp_repeat_at_least :
  forallb (fun t => cf_is_match t)
    [(Some (RRepeatAtLeast 1 (RLiteral 97%N)), [], [97]%N, true);
     (Some (RRepeatAtLeast 1 (RLiteral 97%N)), [], [97; 97]%N, true);
     (Some (RRepeatAtLeast 1 (RLiteral 97%N)), [], [97; 97; 97]%N, true);
     (Some (RRepeatAtLeast 1 (RLiteral 97%N)), [], [97; 97; 97; 97; 97; 97; 97; 97; 97; 97; 97; 97; 97; 97; 97; 97; 97; 97; 97; 97; 97; 97]%N, true);
     (Some (RRepeatAtLeast 1 (RLiteral 97%N)), [], [97; 97; 97; 98]%N, true);
     (Some (RRepeatAtLeast 1 (RLiteral 97%N)), [], [99]%N, false);
     (Some (RRepeatAtLeast 1 (RLiteral 97%N)), [], [98; 98; 98]%N, false);
     (Some (RRepeatAtLeast 1 (RLiteral 97%N)), [], [], false);
     (Some (RRepeatAtLeast 2 (RLiteral 97%N)), [], [97; 97]%N, true);
     (Some (RRepeatAtLeast 2 (RLiteral 97%N)), [], [97; 97; 97]%N, true);
     (Some (RRepeatAtLeast 2 (RLiteral 97%N)), [], [97; 97; 97; 97]%N, true);
     (Some (RRepeatAtLeast 2 (RLiteral 97%N)), [], [97; 97; 97; 97; 97; 97; 97; 97; 97; 97; 97; 97; 97; 97; 97; 97; 97; 97; 97; 97; 97]%N, true);
     (Some (RRepeatAtLeast 2 (RLiteral 97%N)), [], [97; 97; 97; 98]%N, true);
     (Some (RRepeatAtLeast 2 (RLiteral 97%N)), [], [99]%N, false);
     (Some (RRepeatAtLeast 2 (RLiteral 97%N)), [], [98; 98; 98]%N, false);
     (Some (RRepeatAtLeast 2 (RLiteral 97%N)), [], [], false);
     (Some (RRepeatAtLeast 2 (RLiteral 97%N)), [], [97]%N, false);
     (Some (RRepeatAtLeast 3 (RLiteral 97%N)), [], [97; 97; 97]%N, true);
     (Some (RRepeatAtLeast 3 (RLiteral 97%N)), [], [97; 97; 97; 97]%N, true);
     (Some (RRepeatAtLeast 3 (RLiteral 97%N)), [], [97; 97; 97; 97; 97]%N, true);
     (Some (RRepeatAtLeast 3 (RLiteral 97%N)), [], [97; 97; 97; 97; 97; 97; 97; 97; 97; 97; 97; 97; 97; 97; 97; 97; 97; 97; 97; 97; 97; 97]%N, true);
     (Some (RRepeatAtLeast 3 (RLiteral 97%N)), [], [97; 97; 97; 98]%N, true);
     (Some (RRepeatAtLeast 3 (RLiteral 97%N)), [], [99]%N, false);
     (Some (RRepeatAtLeast 3 (RLiteral 97%N)), [], [98; 98; 98]%N, false);
     (Some (RRepeatAtLeast 3 (RLiteral 97%N)), [], [97]%N, false);
     (Some (RRepeatAtLeast 3 (RLiteral 97%N)), [], [97; 97]%N, false)] = true.
Proof. vm_compute. reflexivity. Qed.
(** src/translator/regexp.rs: repeat_at_least_at_most *)
Example regexp_repeat_at_least_at_most :
  forallb (fun t => cf_is_match t)
    [(Some (RRepeatAtLeastAtMost 3 5 (RLiteral 97%N)), [], [97]%N, false);
     (Some (RRepeatAtLeastAtMost 3 5 (RLiteral 97%N)), [], [97; 97]%N, false);
     (Some (RRepeatAtLeastAtMost 3 5 (RLiteral 97%N)), [], [97; 97; 97]%N, true);
     (Some (RRepeatAtLeastAtMost 3 5 (RLiteral 97%N)), [], [97; 97; 97; 97]%N, true);
     (Some (RRepeatAtLeastAtMost 3 5 (RLiteral 97%N)), [], [97; 97; 97; 97; 97]%N, true);
     (Some (RRepeatAtLeastAtMost 3 5 (RLiteral 97%N)), [], [97; 97; 97; 97; 97; 97]%N, true);
     (Some (RRepeatAtLeastAtMost 3 5 (RLiteral 97%N)), [], [97; 97; 97; 97; 97; 97; 97; 97; 97; 97; 97; 97; 97; 97; 97; 97; 97; 97; 97; 97; 97; 97]%N, true);
     (Some (RRepeatAtLeastAtMost 3 5 (RLiteral 97%N)), [], [97; 97; 97; 98]%N, true);
     (Some (RRepeatAtLeastAtMost 3 5 (RLiteral 97%N)), [], [99]%N, false);
     (Some (RRepeatAtLeastAtMost 3 5 (RLiteral 97%N)), [], [98; 98; 98]%N, false)] = true.
Proof. vm_compute. reflexivity. Qed.
(** src/translator/regexp.rs: variable_equal *)
Example regexp_variable_equal :
  forallb (fun t => cf_is_match t)
    [(Some (RConcat (RVarEq 1%N 1%N) (RLiteral 97%N)), [], [97]%N, false);
     (Some (RConcat (RVarEq 1%N 1%N) (RLiteral 97%N)), [], [97; 97]%N, false);
     (Some (RConcat (RVarEq 1%N 1%N) (RLiteral 97%N)), [], [97; 97; 97; 98]%N, false);
     (Some (RConcat (RVarEq 1%N 1%N) (RLiteral 97%N)), [], [99]%N, false);
     (Some (RConcat (RVarEq 1%N 1%N) (RLiteral 97%N)), [], [98; 98; 98]%N, false);
     (Some (RConcat (RVarEq 1%N 1%N) (RLiteral 97%N)), [(1, 42)]%N, [97]%N, false);
     (Some (RConcat (RVarEq 1%N 1%N) (RLiteral 97%N)), [(1, 42)]%N, [97; 97]%N, false);
     (Some (RConcat (RVarEq 1%N 1%N) (RLiteral 97%N)), [(1, 42)]%N, [97; 97; 97; 98]%N, false);
     (Some (RConcat (RVarEq 1%N 1%N) (RLiteral 97%N)), [(1, 42)]%N, [99]%N, false);
     (Some (RConcat (RVarEq 1%N 1%N) (RLiteral 97%N)), [(1, 42)]%N, [98; 98; 98]%N, false);
     (Some (RConcat (RVarEq 1%N 1%N) (RLiteral 97%N)), [(1, 1)]%N, [97]%N, true);
     (Some (RConcat (RVarEq 1%N 1%N) (RLiteral 97%N)), [(1, 1)]%N, [97; 97]%N, true);
     (Some (RConcat (RVarEq 1%N 1%N) (RLiteral 97%N)), [(1, 1)]%N, [97; 97; 97; 98]%N, true);
     (Some (RConcat (RVarEq 1%N 1%N) (RLiteral 97%N)), [(1, 1)]%N, [99]%N, false);
     (Some (RConcat (RVarEq 1%N 1%N) (RLiteral 97%N)), [(1, 1)]%N, [98; 98; 98]%N, false)] = true.
Proof. vm_compute. reflexivity. Qed.
