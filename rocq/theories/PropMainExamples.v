(** Tables of the main pass: the hypotheses of SignSpec SignProofs SetupSpec SetupProofs PropMain.v are met by every table that
    compiles, examples, and the claims that are false of the code. *)
From Coq Require Import Permutation Strings.String.
From Coq Require Import List.
From Verif Require Import Base BaseProofs RuleModel TranslationModel TableModel RegexpModel
  PatternModel TrieModel BrailleModel HyphenationModel LoopModel CompileModel CompileSpec MainTable
  ConstraintModel ConstraintSpec ConstraintProofs IndicatorModel EmphSpec MainSpec TraceSpec MainPass StepFacts TraceProofs SignSpec SignProofs SetupSpec SetupProofs PropMain.

(** Whatever [main_compile] returns, with any iteration order of the hash maps it goes
    through, is a table the theorems speak of. *)
Theorem C02_compiling : forall is_alphabetic compat read_dictionary order1 order2 d x rules m,
  (forall l, Permutation (order1 l) l) -> (forall l, Permutation (order2 l) l) ->
  main_compile is_alphabetic compat read_dictionary order1 order2 d x rules = TOk m ->
  main_built is_alphabetic compat read_dictionary d x rules m.
Proof. intros ? ? ? order1 order2 d x rules m O1 O2 E. exact (main_compile_built _ _ _ _ _ _ order1 order2 m O1 O2 E). Qed.
Print Assumptions C02_compiling.

(** ** A small library for examples: ASCII letters *)
Definition ex_lower (c : char) : list char := [if (N.leb 65 c && N.leb c 90)%bool then (c + 32)%N else c].
Definition ex_upper (c : char) : list char := [if (N.leb 97 c && N.leb c 122)%bool then (c - 32)%N else c].
Definition ex_alpha (c : char) : bool := ((N.leb 65 c && N.leb c 90) || (N.leb 97 c && N.leb c 122))%bool.
Definition ex_sort (l : list event) : res (list event) := Ok (insertion_sort l).
(** one dictionary, with the pattern "a1b" *)
Definition ex_dictionary (path : str) : tres hyph :=
  match hyph_parse (fun s => s) (fun _ => false) (fun _ => false) (fun _ => None) [lit "a1b"] with
  | inr h => TOk h
  | inl _ => TPanic
  end.
Lemma ex_dictionaries : dictionaries_read ex_dictionary.
Proof.
  intros path h. unfold ex_dictionary.
  destruct (hyph_parse (fun s => s) (fun _ => false) (fun _ => false) (fun _ => None) [lit "a1b"]) as [e|h'] eqn:E; [discriminate|].
  intros [= <-]. do 5 eexists. exact E.
Qed.
Lemma ex_rearranges : sort_rearranges ex_sort.
Proof. intros l l' [= <-]. apply EmphProofs.insertion_sort_facts. Qed.
Definition ex_compile (d : direction) (rules : list rule) : tres (context * main_table) :=
  tdo x <- context_compile ex_alpha true rules;
  tdo m <- main_compile ex_alpha true ex_dictionary (fun l => l) (fun l => l) d x rules;
  TOk (x, m).
Lemma ex_built d rules x m : ex_compile d rules = TOk (x, m) ->
  main_built ex_alpha true ex_dictionary d x rules m.
Proof.
  unfold ex_compile. destruct (context_compile ex_alpha true rules) as [x'| |]; try discriminate. cbn [tbind].
  destruct (main_compile ex_alpha true ex_dictionary (fun l => l) (fun l => l) d x' rules) as [m'| |] eqn:E; try discriminate.
  cbn [tbind]. intros [= <- <-]. eapply C02_compiling; [..|exact E]; reflexivity.
Qed.
(** cell number n *)
Definition b (n : N) : str := [(0x2800 + n)%N].
Definition bs (l : list N) : str := map (fun n => (0x2800 + n)%N) l.
Definition ch (s : String.string) : char := match lit s with c :: _ => c | [] => 0%N end.
Arguments ch s%string.
Definition K := no_constraints.
Definition KX := mk_constraints false false true.
(** letters a to d, digits, space, full stop *)
Definition ex_letters : list rule :=
  [RSpace 32%N (b 0) K; RPunctuation (ch ".") (b 50) K;
   RLowercase (ch "a") (b 1) K; RLowercase (ch "b") (b 3) K; RLowercase (ch "c") (b 9) K; RLowercase (ch "d") (b 25) K;
   RUppercase (ch "A") (b 1) K; RUppercase (ch "B") (b 3) K; RUppercase (ch "C") (b 9) K; RUppercase (ch "D") (b 25) K;
   RLitdigit (ch "1") (b 1) K; RLitdigit (ch "2") (b 3) K].
Definition always (s : String.string) (dots : str) : rule := RAlways (lit s) (Explicit dots) K [].
Arguments always s%string.
(** text, dots and origin of the pieces *)
Definition ex_run (d : direction) (rules : list rule) (input : str) (spans : list span) : option (list (str * str)) :=
  match ex_compile d rules with
  | TOk (_, m) => match main_trace ex_lower ex_upper ex_sort m input spans with
                  | Ok out => Some (map (fun t => (r_input t, r_output t)) out)
                  | _ => None
                  end
  | _ => None
  end.

(** the trace itself, and a table that gives it *)
Definition ex_trace (d : direction) (rules : list rule) (input : str) (spans : list span) : list resolved :=
  match ex_compile d rules with
  | TOk (_, m) => match main_trace ex_lower ex_upper ex_sort m input spans with Ok out => out | _ => [] end
  | _ => []
  end.
Lemma ex_traced d rules input spans : ex_run d rules input spans <> None ->
  exists x m, main_built ex_alpha true ex_dictionary d x rules m /\
    ex_compile d rules = TOk (x, m) /\
    main_trace ex_lower ex_upper ex_sort m input spans = Ok (ex_trace d rules input spans).
Proof.
  unfold ex_run, ex_trace. destruct (ex_compile d rules) as [[x m]| |] eqn:E; try congruence.
  destruct (main_trace ex_lower ex_upper ex_sort m input spans) as [out| |] eqn:Et; try congruence.
  intros _. exists x, m. split; [eapply ex_built, E|auto].
Qed.

(** ** Examples *)
Example ex_pieces :
  ex_run Forward (ex_letters ++ [always "ab" (bs [5; 6]%N); RNumsign (b 60)]) (lit "abAB 12.") [] =
  Some [(lit "ab", bs [5; 6]%N); (lit "ab", bs [5; 6]%N); (lit " ", b 0); ([], b 60); (lit "1", b 1); (lit "2", b 3); (lit ".", b 50)].
Proof. vm_compute. reflexivity. Qed.
Example ex_longest :
  ex_run Forward (ex_letters ++ [always "ab" (b 5); always "abc" (b 7)]) (lit "abcab") [] =
  Some [(lit "abc", b 7); (lit "ab", b 5)].
Proof. vm_compute. reflexivity. Qed.
Example ex_insertion :
  ex_run Forward (ex_letters ++ [RContext [TReplace []; TString (lit "b")] [ActString (lit "x")] K]) (lit "ab") [] =
  Some [(lit "a", b 1); ([], lit "x"); (lit "b", b 3)].
Proof. vm_compute. reflexivity. Qed.
(** the dictionary allows a break in "ab" and not in "bc" *)
Example ex_nocross :
  ex_run Forward (ex_letters ++ [RIncludeHyphenation (lit "d"); RAlways (lit "ab") (Explicit (b 5)) KX []; RAlways (lit "bc") (Explicit (b 6)) KX []])
    (lit "abc") [] = Some [(lit "a", b 1); (lit "bc", b 6)].
Proof. vm_compute. reflexivity. Qed.
(** no contraction in a number *)
Example ex_number :
  ex_run Forward (ex_letters ++ [RNumsign (b 60); always "21" (b 7)]) (lit "21") [] =
  Some [([], b 60); (lit "2", b 3); (lit "1", b 1)].
Proof. vm_compute. reflexivity. Qed.
Example ex_computer :
  ex_run Forward (ex_letters ++ [RBegcomp (b 40) K; REndcomp (b 41) K; always "bc" (b 7); RComp6 (lit "cd") (Explicit (b 8))])
    (lit "abcd bc cd") [mk_span computer_braille 0 4] =
  Some [([], b 40); (lit "a", b 1); (lit "b", b 3); (lit "cd", b 8); ([], b 41); (lit " ", b 0);
        (lit "bc", b 7); (lit " ", b 0); (lit "c", b 9); (lit "d", b 25)].
Proof. vm_compute. reflexivity. Qed.
Example ex_punctuation :
  ex_run Forward (ex_letters ++ [RPrepunc (lit ".") (b 51) K]) (lit ".a. .") [] =
  Some [(lit ".", b 51); (lit "a", b 1); (lit ".", b 50); (lit " ", b 0); (lit ".", b 50)].
Proof. vm_compute. reflexivity. Qed.
Example ex_backward_capitals :
  ex_run Backward (ex_letters ++ [RCapsletter (b 32) K; RBegcapsword (bs [32; 32]%N) K]) (bs [32; 1; 0; 3; 0; 32; 32; 1; 3]%N) [] =
  Some [(b 32, []); (b 1, lit "A"); (b 0, lit " "); (b 3, lit "b"); (b 0, lit " "); (bs [32; 32]%N, []); (b 1, lit "A"); (b 3, lit "B")].
Proof. vm_compute. reflexivity. Qed.

(** ** Claims that are false *)
Section Refuted.
Notation built d x rules m := (main_built ex_alpha true ex_dictionary d x rules m).
Notation trace m := (main_trace ex_lower ex_upper ex_sort m).
(** A text reported for a piece need not be the piece's part of the input. *)
Theorem C01_texts_are_the_input_refuted : ~ forall d x rules m input spans out,
  built d x rules m -> trace m input spans = Ok out -> flat_map r_input out = input.
Proof.
  intros H. destruct (ex_traced Forward (ex_letters ++ [always "ab" (b 5)]) (lit "AB") []) as (x & m & B & _ & E); [vm_compute; discriminate|].
  specialize (H _ _ _ _ _ _ _ B E). vm_compute in H. discriminate.
Qed.
(** A compbrl trigger that starts with a space: the pass never ends, whatever the number of
    steps. *)
Theorem C02_compbrl_space_refuted : exists rules x m input,
  built Forward x rules m /\ trace m input [] = OutOfFuel /\
  forall k, mt_scanner m = Some k -> forall fuel, scan_loop k input fuel 0 [] = OutOfFuel.
Proof.
  destruct (ex_compile Forward (ex_letters ++ [RCompbrl (lit " ") K])) as [[x m]| |] eqn:E; [|vm_compute in E; discriminate E..].
  exists (ex_letters ++ [RCompbrl (lit " ") K]), x, m, (lit "a b"). split; [eapply ex_built, E|].
  split.
  - assert (Y : match ex_compile Forward (ex_letters ++ [RCompbrl (lit " ") K]) with
                | TOk (_, m) => trace m (lit "a b") [] | _ => Panic end = OutOfFuel) by (vm_compute; reflexivity).
    rewrite E in Y. exact Y.
  - intros k Ek fuel. apply scan_diverges. exists 1. split; [lia|].
    assert (Y : match ex_compile Forward (ex_letters ++ [RCompbrl (lit " ") K]) with
                | TOk (_, m) => mt_scanner m | _ => None end = Some k) by (rewrite E; exact Ek).
    vm_compute in Y. injection Y as <-. split.
    + exists (lit " "), (lit "b"). vm_compute. split; [auto|]. split; [reflexivity|lia].
    + vm_compute. reflexivity.
Qed.
(** A nocross rule with several characters is used inside a number. *)
Theorem C09_nocross_in_number_refuted : ~ forall x rules m input spans out u a t b,
  built Forward x rules m -> trace m input spans = Ok out -> out = a ++ t :: b ->
  numbers x rules u -> in_number u input (position a) -> r_length t <= 1.
Proof.
  intros H.
  destruct (ex_traced Forward (ex_letters ++ [RNumsign (b 60); RAlways (lit "21") (Explicit (b 7)) KX []]) (lit "21") []) as (x & m & B & EC & E); [vm_compute; discriminate|].
  assert (EX : match ex_compile Forward (ex_letters ++ [RNumsign (b 60); RAlways (lit "21") (Explicit (b 7)) KX []]) with TOk (x, _) => build_numeric x (ex_letters ++ [RNumsign (b 60); RAlways (lit "21") (Explicit (b 7)) KX []]) | _ => None end = Some (mk_numeric_chars [50%N; 49%N] [] [])) by (vm_compute; reflexivity).
  rewrite EC in EX.
  assert (Eo : exists t1 t2, ex_trace Forward (ex_letters ++ [RNumsign (b 60); RAlways (lit "21") (Explicit (b 7)) KX []]) (lit "21") [] = [t1] ++ t2 :: [] /\ r_length t1 = 0 /\ r_length t2 = 2)
    by (vm_compute; do 2 eexists; split; [reflexivity|auto]).
  destruct Eo as (t1 & t2 & Eo & L1 & L2).
  specialize (H _ _ _ _ _ _ _ [t1] t2 [] B E Eo (numbers_built _ _ _ EX)). rewrite L2 in H. assert (2 <= 1); [|lia]. apply H.
  unfold position. cbn [map list_sum fold_right]. rewrite L1. exists 0. split; [lia|]. split.
  - exists 50%N. split; [reflexivity|]. left. reflexivity.
  - intros q Q. lia.
Qed.
(** In computer braille a nocross rule is used as anywhere else. *)
Theorem C10_nocross_in_span_refuted : ~ forall x rules m input out a t b e,
  built Forward x rules m -> trace m input [mk_span computer_braille 0 e] = Ok out -> out = a ++ t :: b ->
  is_sign t = false -> position a < e -> 1 < r_length t -> exists r, r_origin t = Some r /\ is_comp6 r = true.
Proof.
  intros H.
  destruct (ex_traced Forward (ex_letters ++ [RAlways (lit "bc") (Explicit (b 7)) KX []]) (lit "bc") [mk_span computer_braille 0 2]) as (x & m & B & EC & E); [vm_compute; discriminate|].
  assert (Eo : exists t, ex_trace Forward (ex_letters ++ [RAlways (lit "bc") (Explicit (b 7)) KX []]) (lit "bc") [mk_span computer_braille 0 2] = [] ++ t :: [] /\ is_sign t = false /\
     r_length t = 2 /\ match r_origin t with Some r => is_comp6 r | None => false end = false)
    by (vm_compute; eexists; split; [reflexivity|auto]).
  destruct Eo as (t & Eo & S & L & R).
  destruct (H _ _ _ _ _ [] t [] 2 B E Eo S) as (r & Er & K); [vm_compute; lia|rewrite L; lia|]. rewrite Er in R. congruence.
Qed.
(** A nocross prepunc rule is used where no word follows. *)
Theorem C12_nocross_prepunc_refuted : ~ forall x rules m input spans out a t b chars dots k,
  built Forward x rules m -> trace m input spans = Ok out -> out = a ++ t :: b ->
  r_origin t = Some (RPrepunc chars dots k) ->
  exists u, punctuates Forward x rules u /\ word_follows u input (position a).
Proof.
  intros H.
  destruct (ex_traced Forward (ex_letters ++ [RPrepunc (lit ".") (b 51) KX]) (lit ".") []) as (x & m & B & EC & E); [vm_compute; discriminate|].
  assert (Eo : exists t, ex_trace Forward (ex_letters ++ [RPrepunc (lit ".") (b 51) KX]) (lit ".") [] = [] ++ t :: [] /\ r_origin t = Some (RPrepunc (lit ".") (b 51) KX))
    by (vm_compute; eexists; split; [reflexivity|auto]).
  destruct Eo as (t & Eo & O). destruct (H _ _ _ _ _ _ [] t [] _ _ _ B E Eo O) as (u & _ & k & L & (c & N & _) & _).
  assert (X : nth_error (lit ".") k = None) by (apply nth_error_None; clear - L; cbn in *; lia). congruence.
Qed.
(** The sign for a capital letter inside a contraction is not written. *)
Theorem C26_sign_inside_contraction_refuted :
  ex_run Forward (ex_letters ++ [always "ab" (b 5); RCapsletter (b 32) K]) (lit "Ab aB") [] =
    Some [([], b 32); (lit "ab", b 5); (lit " ", b 0); (lit "ab", b 5)] /\
  ex_run Forward (ex_letters ++ [RCapsletter (b 32) K]) (lit "Ab aB") [] =
    Some [([], b 32); (lit "A", b 1); (lit "b", b 3); (lit " ", b 0); (lit "a", b 1); ([], b 32); (lit "B", b 3)].
Proof. vm_compute. auto. Qed.
End Refuted.
Print Assumptions C01_texts_are_the_input_refuted.
Print Assumptions C02_compbrl_space_refuted.
Print Assumptions C09_nocross_in_number_refuted.
Print Assumptions C10_nocross_in_span_refuted.
Print Assumptions C12_nocross_prepunc_refuted.
Print Assumptions C26_sign_inside_contraction_refuted.
