(** C31: hyphenation points follow the Liang pattern rules. *)
From Verif Require Import Base BaseProofs HyphenationModel HyphenationProofs.

(** For every dictionary file that parses and every word: no access is out of range, one flag
    per gap is returned, and the flag between letters i and i+1 is set iff the largest value
    any pattern occurrence in ".word." assigns to that gap ([max_value]) is odd and the
    break leaves at least left_min letters before and right_min letters after it. *)
Theorem C31_break_points_follow_liang :
  forall trim u8n l1n pu lines t word,
  hyph_parse trim u8n l1n pu lines = inr t ->
  exists bs, break_points t word = Ok bs /\ length bs = length word - 1 /\
    forall i, i + 1 < length word ->
    exists v, max_value (h_patterns t) ([46%N] ++ word ++ [46%N]) (i + 2) v /\
      (nth i bs false = true <->
        Nat.odd v = true /\ h_left t <= i + 1 /\ h_right t <= length word - (i + 1)).
Proof. intros trim u8n l1n pu lines t word H. apply break_points_spec. eapply hyph_parse_wf; eauto. Qed.
Print Assumptions C31_break_points_follow_liang.

(** The patterns of the table are the pattern lines of the file (last one first, so that
    a later line for the same letters replaces an earlier one); each with the letters of
    the line and, per gap, the last digit written there ([file_patterns], [pat_spec]). *)
Theorem C31_dictionary_holds_the_pattern_lines :
  forall trim u8n l1n pu lines t,
  hyph_parse trim u8n l1n pu lines = inr t ->
  exists ps, file_patterns trim u8n l1n 0 lines ps /\ h_patterns t = rev ps.
Proof. exact hyph_parse_patterns. Qed.
Print Assumptions C31_dictionary_holds_the_pattern_lines.

(** A line without a non-zero digit is rejected, any other one is read as written. *)
Theorem C31_pattern_line : forall p,
  exists ls t, pat_spec p ls t /\ length t = S (length ls) /\
    parse_pattern p = if forallb (Nat.eqb 0) t then None else Some (ls, t).
Proof. exact parse_pattern_spec. Qed.
Print Assumptions C31_pattern_line.

(** ".ab3a", "b2a", "1b": break in "aba" between b and a (3 beats 2), none before b
    with left minimum 2. *)
Definition ex_lines : list str := [[46;97;98;51;97]; [98;50;97]; [49;98]; [35;120]]%N.
Definition ex_parse := hyph_parse (fun s => s) (fun _ => false) (fun _ => false) (fun _ => None).
Example C31_example : exists t, ex_parse ex_lines = inr t /\
  break_points t [97;98;97]%N = Ok [true; true] /\
  break_points (mk_hyph (h_patterns t) 2 1) [97;98;97]%N = Ok [false; true] /\
  break_points t [98;97]%N = Ok [false].
Proof. eexists; split; [vm_compute; reflexivity|]. vm_compute. auto. Qed.
