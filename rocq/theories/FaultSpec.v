(** What can be wrong with the rules of a table, and which problem is reported. *)
From Coq Require Import List.
From Verif Require Import Base RuleModel TableModel HyphenationModel LineSpec PipelineSpec.

(** ** Patterns of match rules *)
(** [part_of q p]: [q] is the pattern [p] or a part of it *)
Inductive part_of : pattern -> pattern -> Prop :=
| po_same p : part_of p p
| po_group q p ps : In p ps -> part_of q p -> part_of q (PGroup ps)
| po_negate q p : part_of q p -> part_of q (PNegate p)
| po_optional q p : part_of q p -> part_of q (POptional p)
| po_many q p : part_of q p -> part_of q (PZeroOrMore p)
| po_more q p : part_of q p -> part_of q (POneOrMore p)
| po_left q p l r : In p l -> part_of q p -> part_of q (PEither l r)
| po_right q p l r : In p r -> part_of q p -> part_of q (PEither l r).
(** a pattern about characters *)
Definition about_characters (p : pattern) : Prop :=
  match p with PCharacters _ | PSet _ | PAttributes _ | PAttributesOrBoundary _ _ => True | _ => False end.
(** a negation inside a negation, with characters inside both *)
Definition double_negation (ps : list pattern) : Prop :=
  exists p outer inner c, In p ps /\ part_of (PNegate outer) p /\ part_of (PNegate inner) outer /\
    part_of c inner /\ about_characters c.

(** ** Tests *)
Inductive test_part : test_instr -> test_instr -> Prop :=
| tp_same t : test_part t t
| tp_negate q t : test_part q t -> test_part q (TNegate t)
| tp_replace q t ts : In t ts -> test_part q t -> test_part q (TReplace ts).
(** a variable is compared otherwise than with = *)
Definition compares (ts : list test_instr) : Prop :=
  exists t v op n, In t ts /\ test_part (TVariable v op n) t /\ op <> OpEq.

(** ** Rules *)
(** a rule as it is read from a table; a rule for a dictionary comes from an include *)
Definition from_table (r : rule) : Prop :=
  (exists ts rest, Forall (fun t => t <> []) ts /\ written ts r rest) \/ exists path, r = RIncludeHyphenation path.
(** the text of the rules that may have the dots of their characters: = *)
Definition same_as_characters (r : rule) : option str :=
  match r with
  | RContraction chars
  | RAlways chars Implicit _ _ | RSyllable chars Implicit | RWord chars Implicit _ _ | RBegword chars Implicit _ _
  | RMidword chars Implicit _ _ | RPartword chars Implicit _ _ | RMidendword chars Implicit _ _
  | REndword chars Implicit _ _ | RPrfword chars Implicit _ _ | RSufword chars Implicit _ _
  | RBegmidword chars Implicit _ _ | REndnum chars Implicit _ | RComp6 chars Implicit
  | RMatch _ chars _ Implicit _ => Some chars
  | _ => None
  end.
Definition test_and_action (r : rule) : option (list test_instr * list action_instr) :=
  match r with
  | RContext t a _ | RCorrect t a _ | RPass2 t a _ | RPass3 t a _ | RPass4 t a _ => Some (t, a)
  | _ => None
  end.

Inductive fault := Error (e : terr) | Crash.
Section Faults.
Variable read_dictionary : str -> tres hyph.
(** [faulty x r f]: compiling the rule [r] has the problem [f]; [x] has the definitions of
    the characters and swap classes *)
Inductive faulty (x : context) : rule -> fault -> Prop :=
| f_undefined r text before c after :
    same_as_characters r = Some text -> text = before ++ c :: after -> defs_get (x_defs x) c = None ->
    (forall b, In b before -> defs_get (x_defs x) b <> None) ->
    faulty x r (Error (ImplicitCharacterNotDefined c))
| f_negation pre text post dots k :
    (dots = Implicit -> forall c, In c text -> defs_get (x_defs x) c <> None) -> double_negation (pre ++ post) ->
    faulty x (RMatch pre text post dots k) Crash
| f_swap r tests actions before name after :
    test_and_action r = Some (tests, actions) -> actions = before ++ ActSwapClass name :: after ->
    swaps_get (x_swaps x) name = None -> (forall n, In (ActSwapClass n) before -> swaps_get (x_swaps x) n <> None) ->
    faulty x r (Error (SwapClassNotDefined name))
| f_compare r tests actions :
    test_and_action r = Some (tests, actions) ->
    (forall n, In (ActSwapClass n) actions -> swaps_get (x_swaps x) n <> None) -> compares tests ->
    faulty x r Crash
| f_dictionary path e : read_dictionary path = TErr e -> faulty x (RIncludeHyphenation path) (Error e)
| f_dictionary_crash path : read_dictionary path = TPanic -> faulty x (RIncludeHyphenation path) Crash.

(** ** Tables *)
(** the passes that look at a rule; backward, a rule whose action writes no text is left
    out of the passes other than the main pass *)
Definition writes (actions : list action_instr) : Prop :=
  exists s, In (ActString s) actions \/ In (ActDots s) actions.
Definition looked_at (d : direction) (k : pass) (r : rule) : Prop :=
  match k with
  | MainPass => forall k', opcode_of k' r = false
  | _ => opcode_of k r = true /\
         (d = Backward -> exists tests actions, test_and_action r = Some (tests, actions) /\ writes actions)
  end.
(** The first problem: the passes are compiled in this order, for both directions, and in
    each pass the rules in the order of the table; [x] has the definitions of the whole
    table, [xm] those of the rules [rules] meant for the direction. *)
Definition compile_order : list pass := [CorrectPass; MainPass; Pass2; Pass3; Pass4].
Definition agenda (rules : list rule) : list (pass * rule) := list_prod compile_order rules.
Definition problem (d : direction) (x xm : context) (kr : pass * rule) (f : fault) : Prop :=
  looked_at d (fst kr) (snd kr) /\ faulty (match fst kr with MainPass => xm | _ => x end) (snd kr) f.
Definition first_problem (d : direction) (x xm : context) (rules : list rule) (f : fault) : Prop :=
  exists before kr after, agenda rules = before ++ kr :: after /\ problem d x xm kr f /\
    forall b g, In b before -> ~ problem d x xm b g.
End Faults.
