(** C18-C22: the pattern matcher. *)
From Verif Require Import Base BaseProofs RegexpModel RegexpSpec RegexpCode RegexpVM RegexpCorrect RegexpFacts RegexpPrio.

(** C18.  For every pattern without bounded ranges, every variable environment,
    start flag and input: the matcher returns normally, it reports nothing iff no
    prefix of the input is matched by the pattern ([Mat], RegexpSpec.v), and what
    it reports (consumed length, captured text, offset of the capture) is one of
    the matches.  Bounded ranges are the subject of C21. *)
Theorem C18_match_found_iff_pattern_matches :
  forall lower env at_start r input, no_range r = true ->
  exists o, regexp_find lower r env at_start input = Ok o /\
    match o with
    | None => forall j c, ~ Mat lower env at_start input r 0 (0,0) j c
    | Some f => exists j s e, Mat lower env at_start input r 0 (0,0) j (s, e) /\
        s <= e /\ e <= j /\ j <= length input /\ f = report input s e j
    end.
Proof. exact find_spec_no_range. Qed.
Print Assumptions C18_match_found_iff_pattern_matches.

Definition id_lower (c : char) : list char := [c].
Definition no_env (v : N) : option N := None.

(** (ab|a)* b [b]  on "aabbb" *)
Definition ex_pat : regexp :=
  RConcat (RConcat (RZeroOrMore (REither (RString [97;98]%N) (RLiteral 97%N))) (RLiteral 98%N))
          (RCapture (RLiteral 98%N)).
Example C18_example :
  no_range ex_pat = true /\ loops_consume ex_pat = true /\
  regexp_find id_lower ex_pat no_env true [97;97;98;98;98]%N =
    Ok (Some {| f_capture := [98]%N; f_length := 5; f_offset := 4; f_index := 0 |}).
Proof. vm_compute. auto. Qed.
Example C18_example_none :
  regexp_find id_lower ex_pat no_env true [97;97]%N = Ok None.
Proof. vm_compute. auto. Qed.

(** C19.  Whenever loop bodies consume at least one character, the reported match
    is the first one in the order of a backtracking matcher ([bt], RegexpSpec.v:
    left alternative first, loops greedy), including its captured span. *)
Theorem C19_first_match_in_backtracking_order :
  forall lower env at_start r input, no_range r = true -> loops_consume r = true ->
  regexp_find lower r env at_start input = Ok (bt_first lower env at_start r input).
Proof. exact find_first_no_range. Qed.
Print Assumptions C19_first_match_in_backtracking_order.

(** the ordered semantics lists matches only *)
Theorem C19_backtracking_outcomes_are_matches :
  forall lower env at_start input r i c j c',
  In (j, c') (bt lower env at_start input r i c) -> Mat lower env at_start input r i c j c'.
Proof. exact bt_sound. Qed.
Print Assumptions C19_backtracking_outcomes_are_matches.

(** preference matters: (a|ab)(b?) on "ab" takes the left alternative *)
Example C19_example :
  let r := RConcat (REither (RLiteral 97%N) (RString [97;98]%N)) (RCapture (ROptional (RLiteral 98%N))) in
  no_range r = true /\ loops_consume r = true /\
  regexp_find id_lower r no_env true [97;98;98]%N =
    Ok (Some {| f_capture := [98]%N; f_length := 2; f_offset := 1; f_index := 0 |}) /\
  length (bt id_lower no_env true [97;98;98]%N r 0 (0,0)) = 4.
Proof. vm_compute. auto. Qed.

(** C20.  The matcher never panics (no out of range index, no slice inside a
    character, no reversed capture) and never runs out of the model's fuel, for
    any pattern (ranges and empty loops included) and any input. *)
Theorem C20_matcher_never_panics :
  forall lower env at_start r input,
  exists o, regexp_find lower r env at_start input = Ok o /\
    match o with
    | None => True
    | Some f => f_offset f + length (f_capture f) <= f_length f /\ f_length f <= length input /\
                f_capture f = firstn (length (f_capture f)) (skipn (f_offset f) input)
    end.
Proof. exact find_total. Qed.
Print Assumptions C20_matcher_never_panics.

(** ... and at one input position no instruction is visited twice: the list of
    visited instructions stays duplicate free and within the program. *)
Theorem C20_instructions_visited_once_per_position :
  forall env at_start r input (tl : tlist) (pc i : nat) (c : span),
  i <= length input ->
  NoDup (snd tl) -> (forall p, In p (snd tl) -> p < length (fst (compile r))) ->
  pc < length (fst (compile r)) ->
  exists tl', add_thread env at_start (fst (compile r)) (at_fuel (fst (compile r))) tl pc
                (bcap input c) (boff input i) (blen input) = Ok tl' /\
    NoDup (snd tl') /\ incl (snd tl) (snd tl') /\
    (forall p, In p (snd tl') -> p < length (fst (compile r))) /\
    length (snd tl') <= length (fst (compile r)).
Proof. exact add_visits. Qed.
Print Assumptions C20_instructions_visited_once_per_position.

Example C20_example_multibyte :
  (* ("é"|"€")* with capture, on "é€é" : byte offsets 0,2,5,7 *)
  regexp_find id_lower (RCapture (RZeroOrMore (REither (RLiteral 233%N) (RLiteral 8364%N)))) no_env false
    [233; 8364; 233]%N =
    Ok (Some {| f_capture := [233; 8364; 233]%N; f_length := 3; f_offset := 0; f_index := 0 |}).
Proof. vm_compute. auto. Qed.
Example C20_example_empty_loop :
  regexp_find id_lower (RZeroOrMore (ROptional (RLiteral 97%N))) no_env false [97; 97]%N =
    Ok (Some {| f_capture := []; f_length := 2; f_offset := 0; f_index := 0 |}).
Proof. vm_compute. auto. Qed.

(** C21.  [{n,m}] must match k copies exactly for n <= k <= m.  Refuted: too many
    copies are accepted, and a permitted number is rejected. *)
Definition range_claim : Prop :=
  forall lower env at_start n m cs a k, mem a cs = true -> n <= m ->
  (finds lower env at_start (whole (RRepeatAtLeastAtMost n m (RClass cs))) (repeat a k) <-> n <= k <= m).

Theorem C21_range_accepts_too_many_refuted :
  exists lower env at_start n m cs a k, mem a cs = true /\ n <= m /\ m < k /\
    finds lower env at_start (whole (RRepeatAtLeastAtMost n m (RClass cs))) (repeat a k).
Proof. exact range_too_many. Qed.
Print Assumptions C21_range_accepts_too_many_refuted.

Theorem C21_range_rejects_permitted_refuted :
  exists lower env at_start n m cs a k, mem a cs = true /\ n <= k /\ k <= m /\
    ~ finds lower env at_start (whole (RRepeatAtLeastAtMost n m (RClass cs))) (repeat a k).
Proof. exact range_too_few. Qed.
Print Assumptions C21_range_rejects_permitted_refuted.

(** What the code does instead, exactly: characters of the class are accepted iff their
    number is n plus a multiple of m - n. *)
Theorem C21_range_actual :
  forall lower env at_start cs input, (forall a, In a input -> mem a cs = true) -> forall n m,
  finds lower env at_start (whole (RRepeatAtLeastAtMost n m (RClass cs))) input <->
  exists b, length input = n + b * (m - n).
Proof. exact range_reps. Qed.
Print Assumptions C21_range_actual.

(** Ranges of any body anywhere in a pattern: [as_compiled] puts, for every range {n,m} of
    the pattern, n copies of the body and then any number of blocks of m - n copies. *)
Theorem C21_ranges_in_any_pattern :
  forall lower env at_start r input,
  exists o, regexp_find lower r env at_start input = Ok o /\
    match o with
    | None => forall j c, ~ Mat lower env at_start input (as_compiled r) 0 (0,0) j c
    | Some f => exists j s e, Mat lower env at_start input (as_compiled r) 0 (0,0) j (s, e) /\
        s <= e /\ e <= j /\ j <= length input /\ f = report input s e j
    end.
Proof. exact find_spec. Qed.
Print Assumptions C21_ranges_in_any_pattern.

(** The other quantifiers are right. *)
Theorem C21_exact_count :
  forall lower env at_start cs input, (forall a, In a input -> mem a cs = true) -> forall n,
  finds lower env at_start (whole (RRepeatExactly n (RClass cs))) input <-> length input = n.
Proof. exact exactly_reps. Qed.
Print Assumptions C21_exact_count.

Theorem C21_one_or_more :
  forall lower env at_start cs input, (forall a, In a input -> mem a cs = true) ->
  (finds lower env at_start (whole (ROneOrMore (RClass cs))) input <-> 1 <= length input).
Proof. exact plus_reps. Qed.
Print Assumptions C21_one_or_more.

Example C21_example : mem 97%N [97%N] = true /\
  regexp_find id_lower (RRepeatAtLeastAtMost 2 3 (RClass [97%N])) no_env true (repeat 97%N 7) =
    Ok (Some {| f_capture := []; f_length := 7; f_offset := 0; f_index := 0 |}).
Proof. vm_compute. auto. Qed.

(** C22.  Negated single-character tests match exactly one character that fails
    the test; negated anchors match (without consuming) exactly where the anchor
    does not. *)
Theorem C22_negated_class :
  forall lower env at_start input cs r', negate (RClass cs) = Some r' ->
  forall i c j c', Mat lower env at_start input r' i c j c' <->
    (exists a, nth_error input i = Some a /\ mem a cs = false /\ j = S i /\ c' = c).
Proof. exact negate_class. Qed.
Print Assumptions C22_negated_class.

Theorem C22_negated_anchor :
  forall lower env at_start input r r',
  r = REndAnchor \/ r = RNotEndAnchor \/ r = RStartAnchor \/ r = RNotStartAnchor \/ r = REmpty \/ r = RNever ->
  negate r = Some r' ->
  forall i c j c', Mat lower env at_start input r' i c j c' <->
    (~ Mat lower env at_start input r i c i c /\ j = i /\ c' = c).
Proof. exact negate_zero_width. Qed.
Print Assumptions C22_negated_anchor.

Theorem C22_negated_any_never_matches :
  forall lower env at_start input r', negate RAny = Some r' ->
  forall i c j c', ~ Mat lower env at_start input r' i c j c'.
Proof. exact negate_any. Qed.
Print Assumptions C22_negated_any_never_matches.

(** what a negated string means in the code: every character differs *)
Theorem C22_negated_string_actual :
  forall lower env at_start input s r', negate (RString s) = Some r' ->
  forall i c j c', Mat lower env at_start input r' i c j c' <->
    ((forall k e, nth_error s k = Some e -> exists a, nth_error input (i + k) = Some a /\ a <> e)
     /\ j = i + length s /\ c' = c).
Proof. exact negate_string. Qed.
Print Assumptions C22_negated_string_actual.

(** what any negated pattern means in the code ([Neg], RegexpSpec.v) *)
Theorem C22_negation_actual :
  forall lower env at_start input r r', negate r = Some r' ->
  forall i c j c', Mat lower env at_start input r' i c j c' <-> Neg lower env at_start input r i c j c'.
Proof. exact negate_sem. Qed.
Print Assumptions C22_negation_actual.
Example C22_example : exists r', negate (RConcat (REither (RClass [97]%N) (RString [98; 99]%N)) REndAnchor) = Some r' /\
  regexp_find id_lower r' no_env true [99; 98; 99]%N = Ok (Some {| f_capture := []; f_length := 1; f_offset := 0; f_index := 0 |}).
Proof. eexists. split; [reflexivity|]. vm_compute. reflexivity. Qed.

(** A negated test of a variable that was never set does not hold. *)
Theorem C22_negated_unset_variable_refuted : exists lower env at_start v x r',
  negate (RVarEq v x) = Some r' /\ env v = None /\ regexp_find lower r' env at_start [] = Ok None.
Proof. exists id_lower, no_env, true, 1%N, 1%N. eexists. split; [reflexivity|]. split; [reflexivity|]. vm_compute. reflexivity. Qed.
Print Assumptions C22_negated_unset_variable_refuted.

(** Refuted: text of the same length that differs from a string need not match
    its negation, ... *)
Theorem C22_negated_string_refuted :
  exists lower env at_start s input r',
    negate (RString s) = Some r' /\ length input = length s /\ input <> s /\
    regexp_find lower r' env at_start input = Ok None.
Proof. exact neg_string_bad. Qed.
Print Assumptions C22_negated_string_refuted.

(** ... and the negation of an alternative matches text that the alternative
    matches. *)
Theorem C22_negated_either_refuted :
  exists lower env at_start a b input r',
    negate (REither (RClass [a]) (RClass [b])) = Some r' /\
    (exists f, regexp_find lower (REither (RClass [a]) (RClass [b])) env at_start input = Ok (Some f)) /\
    (exists f, regexp_find lower r' env at_start input = Ok (Some f)).
Proof. exact neg_either_bad. Qed.
Print Assumptions C22_negated_either_refuted.
