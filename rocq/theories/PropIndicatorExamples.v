(** Examples of the signs of PropIndicators.v and PropCapsEmph.v, and the claims about them
    that are false of the code. *)
From Coq Require Import ZArith Permutation Strings.String.
From Coq Require Import List.
From Verif Require Import Base BaseProofs RuleModel TranslationModel TableModel RegexpModel
  PatternModel TrieModel BrailleModel HyphenationModel LoopModel CompileModel CompileSpec MainTable
  ConstraintModel ConstraintSpec ConstraintProofs IndicatorModel CapsSpec EmphSpec EmphProofs MainSpec TraceSpec MainPass StepFacts TraceProofs PropMain
  PropMainExamples SignSpec CapsEmphSpec PropIndicators PropCapsEmph.

(** ** Numbers: the number sign before "12", the no-number sign before the "a" behind it *)
Example ex_numsign :
  ex_run Forward (ex_letters ++ [RNumsign (b 60); RNonumsign (b 48) K; RNumericnocontchars (lit "ab")]) (lit "a12a 1.b") [] =
  Some [(lit "a", b 1); ([], b 60); (lit "1", b 1); (lit "2", b 3); ([], b 48); (lit "a", b 1); (lit " ", b 0);
        ([], b 60); (lit "1", b 1); (lit ".", b 50); (lit "b", b 3)].
Proof. vm_compute. reflexivity. Qed.
(** a full stop inside a number belongs to it if it is a midnum character (its own dots are
    used only next to characters of the class digit) *)
Example ex_midnum :
  ex_run Forward (ex_letters ++ [RNumsign (b 60); RMidnum (lit ".") (b 2) K]) (lit "1.2") [] =
  Some [([], b 60); (lit "1", b 1); (lit ".", b 50); (lit "2", b 3)].
Proof. vm_compute. reflexivity. Qed.
(** ** Letter signs *)
Example ex_letsign :
  ex_run Forward (ex_letters ++ [RLetsign (b 48)]) (lit ".a ab b") [] =
  Some [(lit ".", b 50); ([], b 48); (lit "a", b 1); (lit " ", b 0); (lit "a", b 1); (lit "b", b 3); (lit " ", b 0); (lit "b", b 3)].
Proof. vm_compute. reflexivity. Qed.
Example ex_contraction_word :
  ex_run Forward (ex_letters ++ [RLetsign (b 48); RContraction (lit "ab")]) (lit "ab abc Ab.") [] =
  Some [([], b 48); (lit "ab", bs [1; 3]%N); (lit " ", b 0); (lit "a", b 1); (lit "b", b 3); (lit "c", b 9); (lit " ", b 0);
        ([], b 48); (lit "ab", bs [1; 3]%N); (lit ".", b 50)].
Proof. vm_compute. reflexivity. Qed.
(** ** Capitals *)
Definition ex_caps : list rule :=
  ex_letters ++ [RCapsletter (b 32) K; RBegcapsword (bs [32; 32]%N) K; REndcapsword (bs [32; 4]%N) K;
                 RBegcapsphrase (bs [32; 32; 32]%N); REndcapsphrase (bs [32; 2]%N) PosAfter; RLencapsphrase 3%Z].
Example ex_capitals :
  ex_run Forward ex_caps (lit "Ab ABc AB CD AB.") [] =
  Some [([], b 32); (lit "A", b 1); (lit "b", b 3); (lit " ", b 0);
        ([], bs [32; 32]%N); (lit "A", b 1); (lit "B", b 3); ([], bs [32; 4]%N); (lit "c", b 9); (lit " ", b 0);
        ([], bs [32; 32; 32]%N); (lit "A", b 1); (lit "B", b 3); (lit " ", b 0); (lit "C", b 9); (lit "D", b 25); (lit " ", b 0);
        (lit "A", b 1); (lit "B", b 3); ([], bs [32; 2]%N); (lit ".", b 50)].
Proof. vm_compute. reflexivity. Qed.
(** ** Emphasis *)
Definition ex_emph : list rule :=
  ex_letters ++ [REmphclass (lit "italic"); RBegemph (lit "italic") (b 40) K; REndemph (lit "italic") (b 41) K;
                 REmphclass (lit "bold"); RBegemph (lit "bold") (b 42) K; REndemph (lit "bold") (b 43) K;
                 REmphclass (lit "mark"); RBegemph (lit "mark") (b 44) K; REndemph (lit "mark") (b 45) K].
Definition italic := mk_span (lit "italic").
Definition bold := mk_span (lit "bold").
Definition marks := mk_span (lit "mark").
(** bold ends later and is opened first; they are closed in the opposite order *)
Example ex_nested :
  ex_run Forward ex_emph (lit "abc") [italic 0 2; bold 0 3] =
  Some [([], b 42); ([], b 40); (lit "a", b 1); (lit "b", b 3); ([], b 41); (lit "c", b 9); ([], b 43)].
Proof. vm_compute. reflexivity. Qed.
Example ex_same_end :
  ex_run Forward ex_emph (lit "abc") [italic 0 3; bold 1 3] =
  Some [([], b 40); (lit "a", b 1); ([], b 42); (lit "b", b 3); (lit "c", b 9); ([], b 43); ([], b 41)].
Proof. vm_compute. reflexivity. Qed.
Definition ex_emphwords : list rule :=
  ex_letters ++ [REmphclass (lit "italic"); REmphletter (lit "italic") (b 40); RBegemphword (lit "italic") (b 41); REndemphword (lit "italic") (b 42);
                 RBegemphphrase (lit "italic") (b 43); REndemphphrase (lit "italic") (b 44) PosAfter; RLenemphphrase (lit "italic") 3%Z].
Example ex_words :
  ex_run Forward ex_emphwords (lit "a ab abc a b c") [italic 0 4; italic 5 7; italic 9 14] =
  Some [([], b 40); (lit "a", b 1); (lit " ", b 0); ([], b 41); (lit "a", b 1); (lit "b", b 3); (lit " ", b 0);
        ([], b 41); (lit "a", b 1); (lit "b", b 3); ([], b 42); (lit "c", b 9); (lit " ", b 0);
        ([], b 43); (lit "a", b 1); (lit " ", b 0); (lit "b", b 3); (lit " ", b 0); (lit "c", b 9); ([], b 44)].
Proof. vm_compute. reflexivity. Qed.

Section Refuted.
Notation built d x rules m := (main_built ex_alpha true ex_dictionary d x rules m).
Notation trace m := (main_trace ex_lower ex_upper ex_sort m).
Lemma ex_sort_correct : sort_correct ex_sort.
Proof. intros l C. exists (insertion_sort l). split; [reflexivity|]. split; [apply insertion_sort_facts|]. apply insertion_ordered, C. Qed.
(** A number made of characters of the class digit alone (no litdigit rules) gets no number
    sign. *)
Definition ex_digits : list rule := [RDigit (ch "1") (b 1) K; RLowercase (ch "a") (b 1) K; RNumsign (b 60)].
Theorem C25_digit_class_refuted : exists rules x m input out,
  built Forward x rules m /\ (exists dots, In (RNumsign dots) rules) /\ (forall c, In c input -> cls_has (x_chars x) CDigit c = true) /\ input <> [] /\
  trace m input [] = Ok out /\ forall p, signs_put out p = [].
Proof.
  destruct (ex_traced Forward ex_digits (lit "11") []) as (x & m & B & EC & E); [vm_compute; discriminate|].
  exists ex_digits, x, m, (lit "11"). eexists. split; [exact B|]. split; [exists (b 60); right; right; left; reflexivity|]. split.
  { assert (Y : match ex_compile Forward ex_digits with TOk (x, _) => cls_has (x_chars x) CDigit (ch "1") | _ => false end = true) by (vm_compute; reflexivity).
    rewrite EC in Y. intros c [<-|[<-|[]]]; exact Y. }
  split; [discriminate|]. split; [exact E|]. intros p.
  assert (NS : forallb (fun t => negb (is_sign t)) (ex_trace Forward ex_digits (lit "11") []) = true) by (vm_compute; reflexivity).
  revert NS. generalize (ex_trace Forward ex_digits (lit "11") []). clear. intros out NS. unfold signs_put. generalize 0.
  revert NS. induction out as [|t out IH]; intros NS n; [reflexivity|]. cbn [signs_from forallb] in *. apply andb_true_iff in NS. destruct NS as [NS NS'].
  apply negb_true_iff in NS. rewrite NS, andb_false_r. cbn [app]. apply IH, NS'.
Qed.
(** In a table with numericmodechars, a midnum character between two digits ends the number:
    the number sign is repeated. *)
Theorem C25_midnum_with_numericmodechars_refuted : exists rules x m out,
  built Forward x rules m /\ In (RMidnum (lit ".") (b 2) K) rules /\
  trace m (lit "1.2") [] = Ok out /\ length (signs_of Number out 2) = 1.
Proof.
  set (rules := ex_letters ++ [RNumsign (b 60); RMidnum (lit ".") (b 2) K; RNumericmodechars (lit "-")]).
  destruct (ex_traced Forward rules (lit "1.2") []) as (x & m & B & _ & E); [vm_compute; discriminate|].
  exists rules, x, m. eexists. split; [exact B|]. split; [apply in_app_iff; right; cbn; auto|]. split; [exact E|]. vm_compute. reflexivity.
Qed.
(** A letter between two spaces gets no letter sign. *)
Theorem C29_letter_between_spaces_refuted : exists rules x m out,
  built Forward x rules m /\ In (RLetsign (b 48)) rules /\ trace m (lit "d a d") [] = Ok out /\
  length (signs_of Letter out 0) = 1 /\ signs_of Letter out 2 = [].
Proof.
  set (rules := ex_letters ++ [RLetsign (b 48)]).
  destruct (ex_traced Forward rules (lit "d a d") []) as (x & m & B & _ & E); [vm_compute; discriminate|].
  exists rules, x, m. eexists. split; [exact B|]. split; [apply in_app_iff; right; cbn; auto|]. split; [exact E|]. split; vm_compute; reflexivity.
Qed.
(** Where a closing sign meets two opening ones, the one that ends first may be opened first,
    and a sign may be opened before the one that ends there is closed. *)
Theorem C28_mixed_signs_refuted : exists x m input spans out,
  built Forward x ex_emph m /\ sort_correct ex_sort /\ trace m input spans = Ok out /\
  spans = [italic 3 5; bold 0 3; marks 3 7] /\
  map r_origin (signs_of Emphasis out 3) =
    [Some (RBegemph (lit "italic") (b 40) K); Some (REndemph (lit "bold") (b 43) K); Some (RBegemph (lit "mark") (b 44) K)].
Proof.
  destruct (ex_traced Forward ex_emph (lit "abcdabc") [italic 3 5; bold 0 3; marks 3 7]) as (x & m & B & _ & E); [vm_compute; discriminate|].
  exists x, m, (lit "abcdabc"). do 2 eexists. split; [exact B|]. split; [exact ex_sort_correct|]. split; [exact E|]. split; [reflexivity|]. vm_compute. reflexivity.
Qed.
(** Two computer braille spans that abut, the later one listed first: begcomp of the second
    is written before endcomp of the first. *)
Theorem C30_abutting_spans_refuted : exists rules x m input spans out,
  built Forward x rules m /\ trace m input spans = Ok out /\ spans = [mk_span computer_braille 2 4; mk_span computer_braille 0 2] /\
  map r_origin (signs_of Computer out 2) = [Some (RBegcomp (b 40) K); Some (REndcomp (b 41) K)].
Proof.
  set (rules := ex_letters ++ [RBegcomp (b 40) K; REndcomp (b 41) K]).
  destruct (ex_traced Forward rules (lit "abcd") [mk_span computer_braille 2 4; mk_span computer_braille 0 2]) as (x & m & B & _ & E); [vm_compute; discriminate|].
  exists rules, x, m, (lit "abcd"). do 2 eexists. split; [exact B|]. split; [exact E|]. split; [reflexivity|]. vm_compute. reflexivity.
Qed.
(** With "endcapsphrase before" the end of a passage in capitals is shown by the sign of its
    last word, not by the dots of the rule. *)
Definition ex_caps_before : list rule :=
  ex_letters ++ [RCapsletter (b 32) K; RBegcapsword (bs [32; 32]%N) K; RBegcapsphrase (bs [32; 32; 32]%N); REndcapsphrase (bs [32; 2]%N) PosBefore].
Theorem C27_end_before_refuted : exists x m out,
  built Forward x ex_caps_before m /\ trace m (lit "AB CD") [] = Ok out /\
  map r_output out = [bs [32; 32; 32]%N; b 1; b 3; b 0; bs [32; 32]%N; b 9; b 25].
Proof.
  destruct (ex_traced Forward ex_caps_before (lit "AB CD") []) as (x & m & B & _ & E); [vm_compute; discriminate|].
  exists x, m. eexists. split; [exact B|]. split; [exact E|]. vm_compute. reflexivity.
Qed.
End Refuted.
Print Assumptions C25_digit_class_refuted.
Print Assumptions C25_midnum_with_numericmodechars_refuted.
Print Assumptions C29_letter_between_spaces_refuted.
Print Assumptions C28_mixed_signs_refuted.
Print Assumptions C30_abutting_spans_refuted.
Print Assumptions C27_end_before_refuted.
