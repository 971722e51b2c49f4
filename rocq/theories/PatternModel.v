(** Model of src/translator/context_pattern.rs and src/translator/match_pattern.rs:
    compilation of context/correct/pass2-4 tests and actions and of match patterns
    into matchers.  A [HashSet] of characters is the sorted list; [None]/[Panic] stands for a panic
    ([todo!], [unreachable!]). *)
From Verif Require Import Base RuleModel TranslationModel TableModel RegexpModel.

(** ** context_pattern.rs *)

(** context_pattern.rs:79-98 and 119-135, the treatment of a quantifier. *)
Definition quantified (q : option quantifier) (r : regexp) : regexp :=
  match q with
  | None => r
  | Some (QNumber n) => RRepeatExactly (N.to_nat n) r
  | Some (QRange m n) => RRepeatAtLeastAtMost (N.to_nat m) (N.to_nat n) r
  | Some QOneOrMore => ROneOrMore r
  end.

(** [ctx.get(class).unwrap_or_default()].  The set is given by the sorted list of its members. *)
Definition class_chars (ctx : classes) (k : class) : list char :=
  sort_dedup (match cls_get ctx k with Some l => l | None => [] end).

(** context_pattern.rs:106-118: attributes other than classes contribute nothing. *)
Definition attrs_chars (ctx : classes) (attrs : list attribute) : list char :=
  sort_dedup (flat_map (fun a => match a with AClass k => class_chars ctx k | _ => [] end) attrs).

(** context_pattern.rs:20-36 and match_pattern.rs:57-70: left-nested concatenation of a
    non-empty list. *)
Fixpoint concat_left (acc : regexp) (rs : list regexp) : regexp :=
  match rs with
  | [] => acc
  | r :: rest => concat_left (RConcat acc r) rest
  end.

(** context_pattern.rs:38-77 [from_instruction]. *)
Fixpoint re_of_instr (ctx : classes) (t : test_instr) : option regexp :=
  match t with
  | TLookback _ => Some REmpty
  | TVariable v OpEq x => Some (RVarEq v x)
  | TVariable _ _ _ => None
  | TString s => Some (RString s)
  | TDots s => Some (RString s)
  | TAttributes attrs q => Some (quantified q (RClass (attrs_chars ctx attrs)))
  | TClass name q => Some (quantified q (RClass (class_chars ctx (class_from name))))
  | TNegate t' => match re_of_instr ctx t' with Some r => negate r | None => None end
  | TReplace ts =>
      match (fix all (l : list test_instr) : option (list regexp) :=
               match l with
               | [] => Some []
               | x :: r => match re_of_instr ctx x, all r with
                           | Some a, Some b => Some (a :: b)
                           | _, _ => None
                           end
               end) ts with
      | Some [] => Some (RCapture REmpty)
      | Some (r :: rs) => Some (RCapture (concat_left r rs))
      | None => None
      end
  | TAtBeginning => Some RStartAnchor
  | TAtEnd => Some REndAnchor
  end.
(** All instructions of a list. *)
Fixpoint re_of_all (ctx : classes) (l : list test_instr) : option (list regexp) :=
  match l with
  | [] => Some []
  | x :: r => match re_of_instr ctx x, re_of_all ctx r with
              | Some a, Some b => Some (a :: b)
              | _, _ => None
              end
  end.
(** context_pattern.rs:19-36 [from_test], [from_instructions]. *)
Definition re_of_instrs (ctx : classes) (l : list test_instr) : option regexp :=
  match re_of_all ctx l with
  | Some [] => Some REmpty
  | Some (r :: rs) => Some (concat_left r rs)
  | None => None
  end.

(** multipass/test.rs:22-35 [add_implicit_replace]. *)
Definition is_replace (t : test_instr) : bool := match t with TReplace _ => true | _ => false end.
Definition add_implicit_replace (ts : list test_instr) : list test_instr :=
  if existsb is_replace ts then ts else [TReplace ts].

(** context_pattern.rs:138-164 [TranslationTarget::from_instruction]. *)
Definition target_of (sw : swaps) (a : action_instr) : tres target :=
  match a with
  | ActString s => TOk (TLiteral s)
  | ActDots s => TOk (TLiteral s)
  | ActSwapClass name => match swaps_get sw name with
                         | Some x => TOk (TSwap x)
                         | None => TErr (SwapClassNotDefined name)
                         end
  | ActReplace => TOk TCapture
  | ActIgnore => TOk (TLiteral [])
  | ActAssignment _ _ | ActIncrement _ | ActDecrement _ => TOk (TLiteral [])
  end.
(** context_pattern.rs:166-177 [TranslationTargets::from_instructions]. *)
Fixpoint targets_of (sw : swaps) (l : list action_instr) : tres (list target) :=
  match l with
  | [] => TOk []
  | a :: r => tdo t <- target_of sw a; tdo ts <- targets_of sw r; TOk (t :: ts)
  end.
(** context_pattern.rs:183-199 [Effects]. *)
Definition effects_of (l : list action_instr) : list effect :=
  flat_map (fun a => match a with ActAssignment v x => [effect_new v x] | _ => [] end) l.

(** A [CompiledRegexp] with its payload (regexp.rs:314-325); the code it stands for
    is that of [compile]. *)
Record cpat := mk_cpat { cp_re : regexp; cp_payload : translation }.

(** context_pattern.rs:244-251: the classes a stage uses. *)
Definition stage_classes (x : context) (st : stage) : classes :=
  match st with
  | Pre | Main => x_chars x
  | Post1 | Post2 | Post3 => x_dots x
  end.

(** context_pattern.rs:214-255 [translation], [insert]. *)
Definition context_insert (x : context) (test : list test_instr) (action : list action_instr)
           (o : rule) (st : stage) : tres cpat :=
  tdo ts <- targets_of (x_swaps x) action;
  match re_of_instrs (stage_classes x st) (add_implicit_replace test) with
  | Some r => TOk (mk_cpat r (Unresolved
                  (mk_unresolved ts (rule_precedence o) st (effects_of action) (Some o))))
  | None => TPanic
  end.

(** ** match_pattern.rs *)

(** match_pattern.rs:14-19 [boundary_anchor]. *)
Definition boundary_anchor (s : side) : regexp :=
  match s with SPre => RStartAnchor | SPost => REndAnchor end.

(** match_pattern.rs:72-92 [from_attributes]: [unreachable!] for the boundary and
    by-order attributes. *)
Definition bad_attr (a : attribute) : bool :=
  match a with ABoundary | AByOrder _ => true | _ => false end.
Definition re_of_attrs (ctx : classes) (attrs : list attribute) : option regexp :=
  if existsb bad_attr attrs then None else Some (RClass (attrs_chars ctx attrs)).

Definition opt_map2 {A B C} (f : A -> B -> C) (a : option A) (b : option B) : option C :=
  match a, b with Some x, Some y => Some (f x y) | _, _ => None end.
Definition opt_bind {A B} (a : option A) (f : A -> option B) : option B :=
  match a with Some x => f x | None => None end.

(** match_pattern.rs:57-70: [todo!] on an empty list. *)
Definition concat_nonempty (rs : list regexp) : option regexp :=
  match rs with [] => None | r :: rest => Some (concat_left r rest) end.

(** match_pattern.rs:22-55 [from_pattern]. *)
Fixpoint re_of_pattern (ctx : classes) (p : pattern) : option regexp :=
  let all := fix all (l : list pattern) : option (list regexp) :=
    match l with
    | [] => Some []
    | x :: r => opt_map2 cons (re_of_pattern ctx x) (all r)
    end in
  match p with
  | PEmpty => Some REmpty
  | PCharacters s => Some (RString s)
  | PBoundary s => Some (boundary_anchor s)
  | PAny => Some RAny
  | PSet cs => Some (RClass cs)
  | PAttributes attrs => re_of_attrs ctx attrs
  | PAttributesOrBoundary attrs s =>
      option_map (fun r => REither r (boundary_anchor s)) (re_of_attrs ctx attrs)
  | PGroup ps => option_map RGroup (opt_bind (all ps) concat_nonempty)
  | PNegate q => opt_bind (re_of_pattern ctx q) negate
  | POptional q => option_map ROptional (re_of_pattern ctx q)
  | PZeroOrMore q => option_map RZeroOrMore (re_of_pattern ctx q)
  | POneOrMore q => option_map ROneOrMore (re_of_pattern ctx q)
  | PEither l r => opt_map2 REither (opt_bind (all l) concat_nonempty) (opt_bind (all r) concat_nonempty)
  end.
Fixpoint re_of_pattern_list (ctx : classes) (l : list pattern) : option (list regexp) :=
  match l with
  | [] => Some []
  | x :: r => opt_map2 cons (re_of_pattern ctx x) (re_of_pattern_list ctx r)
  end.
(** match_pattern.rs:57-70 [from_patterns]. *)
Definition re_of_patterns (ctx : classes) (l : list pattern) : option regexp :=
  opt_bind (re_of_pattern_list ctx l) concat_nonempty.

(** match_pattern.rs:103-119 [from_match_rule]. *)
Definition re_of_match (ctx : classes) (pre : list pattern) (chars : str) (post : list pattern)
  : option regexp :=
  opt_map2 (fun a b => RConcat (RConcat a (RCapture (RCIString chars))) b)
           (re_of_patterns ctx pre) (re_of_patterns ctx post).

(** match_pattern.rs:134-153 [insert]. *)
Definition match_insert (ctx : classes) (pre : list pattern) (chars : str) (post : list pattern)
           (dots : str) (o : rule) : tres cpat :=
  match re_of_match ctx pre chars post with
  | Some r => TOk (mk_cpat r (Resolved (resolved_new chars dots 0 Main (Some o))))
  | None => TPanic
  end.

(** ** Lookup *)
Section Find.
Variable lower : char -> list char.

(** regexp.rs:606-613: the payload resolved with the capture. *)
Definition cpat_find (p : cpat) (e : env) (at_start : bool) (input : str) : res (option resolved) :=
  do o <- regexp_find lower (cp_re p) (env_get e) at_start input;
  match o with
  | None => Ok None
  | Some f => do t <- translation_resolve (cp_payload p) (f_capture f) (f_length f) (f_offset f);
              Ok (Some t)
  end.

(** context_pattern.rs:271-276 [ContextPatterns::find] (and, with the empty
    environment, match_pattern.rs:170-175 [MatchPatterns::find]). *)
Fixpoint cpats_find (ps : list cpat) (e : env) (at_start : bool) (input : str)
  : res (list resolved) :=
  match ps with
  | [] => Ok []
  | p :: r => do o <- cpat_find p e at_start input;
              do l <- cpats_find r e at_start input;
              Ok (match o with Some t => t :: l | None => l end)
  end.
Definition match_find (ps : list cpat) (at_start : bool) (input : str) : res (list resolved) :=
  cpats_find ps env_new at_start input.
End Find.
