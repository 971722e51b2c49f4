(** Tests of the parts of the main pass, replayed on the model by hand (see [ConfBase]):
    src/translator/indication.rs, src/translator/indication/*.rs,
    src/translator/position_constraints.rs, src/translator/trie.rs, src/translator/swap.rs and
    src/translator/table.rs.  Where a test calls a builder with the cells of a rule, the rule is
    given here as a line of a table. *)
From Coq Require Import String.
From Verif Require Import Base BaseProofs RuleModel TranslationModel TableModel RegexpModel PatternModel OperandModel TrieModel BrailleModel
  HyphenationModel LoopModel CompileModel ConstraintModel IndicatorModel PipelineModel ParserModel IncludeModel TranslatorModel ConfBase.

Definition classes_of (l : list (class * string)) : classes := flat_map (fun p => map (pair (fst p)) (lit (snd p))) l.
Definition context_of (l : list (class * string)) : context := mk_context [] (classes_of l) [] [].
Definition rules_of (l : list string) : list rule := flat_map (fun s => match cf_rule (lit s) with Some r => [r] | None => [] end) l.
Definition shown_signs (l : list placed) : list (nat * str) := map (fun p => (fst p, r_output (snd p))) l.
Notation "'cells' l" := (map (fun d => (10240 + d)%N) l) (at level 9).

(** ** indication.rs *)
Example find_spans_returns_maximal_matching_runs :
  find_spans (fun c => negb (N.eqb c 32)) (lit "  ab cd  e") 0 10 = [(2, 4); (5, 7); (9, 10)].
Proof. vm_compute. reflexivity. Qed.
Example find_spans_respects_the_given_range :
  find_spans (fun c => N.eqb c 98) (lit "aabbaabb") 2 6 = [(2, 4)].
Proof. vm_compute. reflexivity. Qed.
Definition signs_for (l : list (class * string)) (rs : list string) (input : string) (spans : list span) : option (list (list str)) :=
  match build_indicators true (context_of l) (rules_of rs) (fun l => l) (fun l => l) with
  | TOk i => match indications_of cf_lower cf_sort i (lit input) spans with
             | Ok t => Some (map (map r_output) t) | _ => None end
  | _ => None
  end.
Example precompute_combines_indicators :
  signs_for [(CLitdigit, "123"); (CUppercase, "ABC"); (CLetter, "abcABC")]%string ["numsign 3456"; "capsletter 6"]%string "A1"%string []
  = Some [[cells [32%N]]; [cells [60%N]]; []].
Proof. vm_compute. reflexivity. Qed.
(** *** numeric.rs *)
Definition numbers_for (rs : list string) (input : string) : option (list (nat * str)) :=
  option_map (fun u => shown_signs (numeric_precompute u (lit input)))
             (build_numeric_ind (context_of [(CLitdigit, "123")]%string) (rules_of rs)).
Example numeric_precompute_number :
  numbers_for ["numsign 3456"; "numericnocontchars abc"]%string "ab12 a"%string = Some [(2, cells [60%N])].
Proof. vm_compute. reflexivity. Qed.
Example numeric_precompute_end_indication :
  numbers_for ["numsign 3456"; "nonumsign 56"; "numericnocontchars abc"]%string "ab12a"%string
  = Some [(2, cells [60%N]); (4, cells [48%N])].
Proof. vm_compute. reflexivity. Qed.
(** *** nocontract.rs *)
Definition nocont_for (rs : list string) (input : string) : option (list (nat * str)) :=
  match build_nocont_ind true (context_of [(CLetter, "abcd")]%string) (rules_of rs) (fun l => l) with
  | TOk (Some u) => Some (shown_signs (nocont_precompute cf_lower u (lit input)))
  | _ => None
  end.
Example nocontract_precompute_indicator :
  map (nocont_for ["nocontractsign 7"; "contraction ab"; "contraction cd"]%string) ["aa"; "ab"; "cd"]%string
  = [Some []; Some [(0, cells [64%N])]; Some [(0, cells [64%N])]].
Proof. vm_compute. reflexivity. Qed.
(** *** lettersign.rs *)
Definition letters_for (l : list (class * string)) (rs : list string) (inputs : list string) : option (list (list (nat * str))) :=
  match build_letter_ind true (context_of l) (rules_of rs) (fun l => l) with
  | TOk (Some u) => Some (map (fun input => shown_signs (letter_precompute cf_lower u (lit input))) inputs)
  | _ => None
  end.
Example isolated_letter_fires_when_not_preceded_by_space :
  letters_for [(CLetter, "abc"); (CSpace, " ")]%string ["letsign 6"]%string ["b:"; "2b"; "x b"; " b "; ":bc"; "abc"]%string
  = Some [[(0, cells [32%N])]; [(1, cells [32%N])]; []; []; []; []].
Proof. vm_compute. reflexivity. Qed.
Example noletsign_suppresses_isolation_letsign :
  letters_for [(CLetter, "abi"); (CSpace, " ")]%string ["letsign 6"; "noletsign i"]%string ["2i"; "2b"]%string
  = Some [[]; [(1, cells [32%N])]].
Proof. vm_compute. reflexivity. Qed.
Example noletsign_suppresses_contraction_letsign :
  letters_for [(CLetter, "ab")]%string ["letsign 6"; "contraction ab"; "noletsign a"]%string ["ab"]%string = Some [[]].
Proof. vm_compute. reflexivity. Qed.
Example noletsignafter_suppresses_isolation_letsign :
  letters_for [(CLetter, "abc"); (CSpace, " ")]%string ["letsign 6"; "noletsignafter 2"]%string ["2b"; "3b"]%string
  = Some [[]; [(1, cells [32%N])]].
Proof. vm_compute. reflexivity. Qed.
Example lettersign_precompute_contraction :
  letters_for [(CLetter, "abcd")]%string ["letsign 6"; "contraction ab"; "contraction cd"]%string ["aa"; "ab"]%string
  = Some [[]; [(0, cells [32%N])]].
Proof. vm_compute. reflexivity. Qed.
(** *** uppercase.rs *)
Definition caps_for (space : string) (rs : list string) (inputs : list string) : option (list (option (list (nat * str)))) :=
  option_map (fun u => map (fun input => match caps_precompute u (lit input) with Ok l => Some (shown_signs l) | _ => None end) inputs)
    (build_caps_ind (context_of [(CUppercase, "ABCDEF"); (CLetter, "ABCDEFabcdef"); (CSpace, space)]%string) (rules_of rs)).
Arguments caps_for space%string.
Example uppercase_precompute_indicator :
  caps_for "" ["capsletter 123"]%string ["Abc "]%string = Some [Some [(0, cells [7%N])]].
Proof. vm_compute. reflexivity. Qed.
Example uppercase_precompute_end_indication :
  caps_for "" ["begcapsword 123"; "endcapsword 6"]%string ["ABCa"]%string = Some [Some [(0, cells [7%N]); (3, cells [32%N])]].
Proof. vm_compute. reflexivity. Qed.
Example begcaps_fallback_when_no_word_tier :
  caps_for "" ["capsletter 123"; "begcaps 6-6"; "endcaps 3"]%string ["ABc"; "aBC "; "ABC"]%string
  = Some [Some [(0, cells [32; 32]%N); (2, cells [4%N])]; Some [(1, cells [32; 32]%N); (3, cells [4%N])];
          Some [(0, cells [32; 32]%N); (3, cells [4%N])]].
Proof. vm_compute. reflexivity. Qed.
Example capsletter_repeats_when_no_word_or_mode_tier :
  caps_for "" ["capsletter 123"]%string ["ABC"]%string = Some [Some [(0, cells [7%N]); (1, cells [7%N]); (2, cells [7%N])]].
Proof. vm_compute. reflexivity. Qed.
Example whole_word_passage_uses_begcaps_over_begcapsword :
  caps_for " " ["begcapsword 6"; "begcaps 6-6"; "endcaps 3"]%string ["ABC DEF"; "ABC"]%string
  = Some [Some [(0, cells [32; 32]%N); (7, cells [4%N])]; Some [(0, cells [32%N])]].
Proof. vm_compute. reflexivity. Qed.
Example hyphenated_segments_dont_count_as_separate_words :
  caps_for " " ["begcapsword 6"; "begcaps 6-6"; "endcaps 3"]%string ["ABC-DEF"]%string
  = Some [Some [(0, cells [32%N]); (4, cells [32%N])]].
Proof. vm_compute. reflexivity. Qed.
Example phrase_tier_used_once_length_threshold_reached :
  caps_for " " ["begcapsword 6"; "begcaps 6-6"; "endcaps 3"; "begcapsphrase 6-6-6"; "lencapsphrase 3"]%string ["AB CD"; "AB CD EF"]%string
  = Some [Some [(0, cells [32%N]); (3, cells [32%N])]; Some [(0, cells [32; 32; 32]%N); (8, cells [4%N])]].
Proof. vm_compute. reflexivity. Qed.
(** *** emphasis.rs *)
Definition emph_for (rs : list string) (input : string) (spans : list span) : option (list (nat * str)) :=
  match emph_precompute (fun l => Ok (insertion_sort l)) (build_emph context_empty (rules_of rs)) (lit input) spans with
  | Ok l => Some (shown_signs l)
  | _ => None
  end.
Example emphletter_for_single_char :
  emph_for ["emphletter italic 46"]%string "hello"%string [mk_span (lit "italic") 2 3] = Some [(2, cells [40%N])].
Proof. vm_compute. reflexivity. Qed.
Example begemphword_for_whole_word :
  emph_for ["begemphword italic 46"]%string "hello"%string [mk_span (lit "italic") 0 5] = Some [(0, cells [40%N])].
Proof. vm_compute. reflexivity. Qed.
Example noemphchars_splits_span_into_two_runs :
  emph_for ["emphletter italic 46"; "noemphchars italic ,"]%string "a,b"%string [mk_span (lit "italic") 0 3]
  = Some [(0, cells [40%N]); (2, cells [40%N])].
Proof. vm_compute. reflexivity. Qed.
Example emphmodechars_hyphen_splits_word_within_run :
  emph_for ["begemphword italic 46"; "emphmodechars italic \s-"]%string "well-known"%string [mk_span (lit "italic") 0 10]
  = Some [(0, cells [40%N]); (5, cells [40%N])].
Proof. vm_compute. reflexivity. Qed.
(** *** computer_braille.rs *)
Definition comp_for (rs : list string) (input : string) (spans : list span) : option (list (nat * str)) :=
  option_map (fun u => shown_signs (comp_precompute u (lit input) spans)) (build_comp_ind (rules_of rs)).
Example begcomp_emitted_at_span_start :
  comp_for ["begcomp 123456"; "endcomp 123456"]%string "hello"%string [mk_span (lit "computer_braille") 1 4]
  = Some [(1, cells [63%N]); (4, cells [63%N])].
Proof. vm_compute. reflexivity. Qed.
Example non_computer_braille_spans_ignored :
  comp_for ["begcomp 123456"]%string "hello"%string [mk_span (lit "italic") 0 5] = Some [].
Proof. vm_compute. reflexivity. Qed.

(** ** position_constraints.rs *)
Definition flags_for (f : flags -> bool) (k : constrainers) (input : string) (spans : list span) : option (list bool) :=
  match limits_of k (lit input) spans with Ok l => Some (map f l) | _ => None end.
Definition no_constrainers : constrainers := mk_constrainers None None None None None.
Definition numeric_constrainers (digits mid : string) : constrainers :=
  mk_constrainers (Some (mk_numeric_chars (lit digits) [] (lit mid))) None None None None.
Arguments numeric_constrainers digits%string mid%string.
Example numeric_run :
  flags_for k_dont_contract (numeric_constrainers "123" "") "ab12 a"%string [] = Some [false; false; true; true; false; false].
Proof. vm_compute. reflexivity. Qed.
Example midnum_extends_run :
  flags_for k_dont_contract (numeric_constrainers "123" ".") "1.2"%string [] = Some [true; true; true].
Proof. vm_compute. reflexivity. Qed.
Example empty_returns_false : map (flag_at k_dont_contract []) [0; 99] = [false; false].
Proof. vm_compute. reflexivity. Qed.
Example computer_braille_span_sets_use_comp6 :
  flags_for k_comp6 no_constrainers "hello"%string [mk_span (lit "computer_braille") 1 4] = Some [false; true; true; true; false] /\
  flags_for k_dont_contract no_constrainers "hello"%string [mk_span (lit "computer_braille") 1 4] = Some [false; false; false; false; false].
Proof. vm_compute. split; reflexivity. Qed.
Definition caps_constrainers (a b c : option str) (l : string) : constrainers :=
  mk_constrainers None (Some (mk_caps_cells a b c (lit l))) None None None.
Arguments caps_constrainers a b c l%string.
Example capsletter_marks_next_cell_titlecase :
  flags_for k_titlecase (caps_constrainers (Some (lit "C")) None None "") "aCbc"%string [] = Some [false; false; true; false].
Proof. vm_compute. reflexivity. Qed.
Example begcapsword_marks_letters_until_non_letter_cell :
  flags_for k_uppercase (caps_constrainers None (Some (lit "W")) None "abc") "Wabc "%string [] = Some [false; true; true; true; false].
Proof. vm_compute. reflexivity. Qed.
Example begcapsword_stops_at_endcapsword :
  flags_for k_uppercase (caps_constrainers None (Some (lit "W")) (Some (lit "E")) "abc") "WabEc"%string [] = Some [false; true; true; false; false].
Proof. vm_compute. reflexivity. Qed.
Example begcapsword_checked_before_capsletter_when_dots_share_a_prefix :
  flags_for k_uppercase (caps_constrainers (Some (lit "C")) (Some (lit "CC")) None "ab") "CCab "%string [] = Some [false; false; true; true; false] /\
  flags_for k_titlecase (caps_constrainers (Some (lit "C")) (Some (lit "CC")) None "ab") "CCab "%string [] = Some [false; false; false; false; false].
Proof. vm_compute. split; reflexivity. Qed.
Definition number_constrainers (a b : option str) (d l : string) : constrainers :=
  mk_constrainers None None (Some (mk_number_cells a b (lit d) (lit l))) None None.
Arguments number_constrainers a b d%string l%string.
Example numsign_marks_digit_cells_until_non_digit :
  flags_for k_digit (number_constrainers (Some (lit "N")) None "12" "") "N12a1"%string [] = Some [false; true; true; false; false].
Proof. vm_compute. reflexivity. Qed.
Example nonumsign_ends_the_run_explicitly :
  flags_for k_digit (number_constrainers (Some (lit "N")) (Some (lit "X")) "12" "") "N1X2"%string [] = Some [false; true; false; false].
Proof. vm_compute. reflexivity. Qed.
Example numsign_ignored_when_preceded_by_a_letter_cell :
  flags_for k_digit (number_constrainers (Some (lit "N")) None "12" "x") "xN12"%string [] = Some [false; false; false; false].
Proof. vm_compute. reflexivity. Qed.

(** ** trie.rs *)
Definition entry (from to : string) (before after : option transition) (ks : list class_constraint) : ins_args :=
  mk_ins (lit from) (lit to) before after PDefault ks Main None.
Arguments entry from%string to%string.
Definition trie_finds (l : list (class * string)) (es : list ins_args) (inputs : list (string * option char))
  : option (list (list (str * str * nat))) :=
  match trie_insert_all true (classes_of l) Forward node_empty es with
  | TOk n => Some (map (fun q => map (fun t => (r_input t, r_output t, r_weight t))
                                     (find_translations cf_lower n (lit (fst q)) (snd q))) inputs)
  | _ => None
  end.
Definition hit (a b : string) (w : nat) : str * str * nat := (lit a, lit b, w).
Arguments hit a%string b%string.
Definition CH (s : string) : option char := hd_error (lit s).
Arguments CH s%string.
Example empty_trie : trie_finds [] [] [("foo"%string, None)] = Some [[]].
Proof. vm_compute. reflexivity. Qed.
Example trie_find_translations :
  trie_finds [] (map (fun p => entry (fst p) (snd p) None None []) [("a", "A"); ("f", "F"); ("fo", "FO"); ("foo", "FOO"); ("foobar", "FOOBAR")]%string)
    [("a", None); ("f", None); ("fo", None); ("foobar", None); ("foobaz", None); ("function", None); ("folio", None); ("none", None);
     ("The start of a long long sentence", None)]%string
  = Some [[hit "a" "A" 1]; [hit "f" "F" 1]; [hit "f" "F" 1; hit "fo" "FO" 2];
          [hit "f" "F" 1; hit "fo" "FO" 2; hit "foo" "FOO" 3; hit "foobar" "FOOBAR" 6];
          [hit "f" "F" 1; hit "fo" "FO" 2; hit "foo" "FOO" 3]; [hit "f" "F" 1]; [hit "f" "F" 1; hit "fo" "FO" 2]; []; []].
Proof. vm_compute. reflexivity. Qed.
Example find_translations_with_boundaries :
  trie_finds [(CLetter, "ah")]%string [entry "a" "A" (Some (TrStart [CSpace; CPunctuation])) (Some (TrEnd [CSpace; CPunctuation])) []]
    [("a", None); ("aha", None)]%string = Some [[hit "a" "A" 3]; []].
Proof. vm_compute. reflexivity. Qed.
Example find_translations_with_negative_boundary_after :
  trie_finds [(CLetter, "fobar"); (CSpace, " "); (CPunctuation, ".")]%string
    [entry "foo" "FOO" (Some (TrStart [CSpace; CPunctuation])) (Some (TrEnd [CLetter])) []]
    [("foo", None); ("foo ", None); ("foobar", None); ("foo.", None)]%string = Some [[]; []; [hit "foo" "FOO" 5]; []].
Proof. vm_compute. reflexivity. Qed.
Example find_translations_with_negative_boundary_before :
  trie_finds [(CLetter, "foc"); (CSpace, " "); (CPunctuation, ".")]%string [entry "foo" "FOO" (Some (TrStart [CLetter])) None []]
    [("foo", None); ("foo", CH " "); ("foo", CH "."); ("foo", CH "c")]%string = Some [[]; []; []; [hit "foo" "FOO" 4]].
Proof. vm_compute. reflexivity. Qed.
Example find_translations_with_negative_boundaries :
  trie_finds [(CLetter, "fobarc"); (CSpace, " "); (CPunctuation, ".")]%string
    [entry "foo" "FOO" (Some (TrStart [CLetter])) (Some (TrEnd [CLetter])) []]
    [("foo", None); ("foo", CH " "); ("foo", CH "."); ("foo", CH "c"); ("foobar", CH "c")]%string
  = Some [[]; []; []; []; [hit "foo" "FOO" 5]].
Proof. vm_compute. reflexivity. Qed.
Example find_translations_with_word_num_boundary :
  trie_finds [(CLetter, "ac"); (CLitdigit, "1"); (CSpace, " "); (CPunctuation, ".")]%string
    [entry "aaa" "A" (Some (TrStart [CSpace; CPunctuation])) (Some (TrEnd [CLitdigit])) []]
    [("aaa", None); ("aaa1", CH " "); ("aaa1", CH "."); ("aaa1", CH "c")]%string
  = Some [[]; [hit "aaa" "A" 5]; [hit "aaa" "A" 5]; []].
Proof. vm_compute. reflexivity. Qed.
Example find_translations_with_num_word_boundary :
  trie_finds [(CLetter, "sta"); (CLitdigit, "1"); (CSpace, " "); (CPunctuation, ".")]%string
    [entry "st" "S" (Some (TrStart [CLitdigit])) (Some (TrEnd [CSpace; CPunctuation])) []]
    [("st", None); ("st", CH " "); ("st", CH "."); ("st", CH "1"); ("sta", CH "1")]%string
  = Some [[]; []; []; [hit "st" "S" 4]; []].
Proof. vm_compute. reflexivity. Qed.
Example find_translations_with_word_punc_boundary :
  trie_finds [(CPunctuation, "()."); (CSpace, " "); (CLetter, "a")]%string [entry "(" "[" (Some (TrStart [CLetter])) None []]
    [("(", None); ("(", CH " "); ("(", CH "."); ("(", CH "a")]%string = Some [[]; []; []; [hit "(" "[" 2]].
Proof. vm_compute. reflexivity. Qed.
Example find_translations_with_punc_word_boundary :
  trie_finds [(CPunctuation, "()."); (CSpace, " "); (CLetter, "a")]%string [entry "(" "[" None (Some (TrEnd [CLetter])) []]
    [("(", None); ("(", CH " "); ("(", CH "."); ("(", CH "a"); ("(a", None); ("(a", CH "(")]%string
  = Some [[]; []; []; []; [hit "(" "[" 2]; [hit "(" "[" 2]].
Proof. vm_compute. reflexivity. Qed.
Example find_translations_case_insensitive :
  trie_finds [] [entry "foo" "FOO" None None []] [("foo", None); ("Foo", None); ("FOO", None); ("foO", None)]%string
  = Some (repeat [hit "foo" "FOO" 3] 4).
Proof. vm_compute. reflexivity. Qed.
Example find_translations_with_end_class :
  trie_finds [(CLetter, "abc"); (CDigit, "12"); (CSpace, " ")]%string
    [entry "foo" "FL" None None [KEnd CLetter]; entry "foo" "FD" None None [KEnd CDigit]]
    [("fooa", None); ("foo1", None); ("foo ", None); ("foo", None)]%string
  = Some [[hit "foo" "FL" 4]; [hit "foo" "FD" 4]; []; []].
Proof. vm_compute. reflexivity. Qed.
Example find_translations_with_start_class :
  trie_finds [(CLetter, "abc"); (CDigit, "12"); (CSpace, " ")]%string
    [entry "foo" "AL" None None [KStart CLetter]; entry "foo" "AD" None None [KStart CDigit]]
    [("foo", CH "a"); ("foo", CH "1"); ("foo", CH " "); ("foo", None)]%string
  = Some [[hit "foo" "AL" 4]; [hit "foo" "AD" 4]; []; []].
Proof. vm_compute. reflexivity. Qed.

(** ** table.rs *)
Definition same_chars (a b : list char) : bool := (forallb (fun c => mem c b) a && forallb (fun c => mem c a) b)%bool.
Definition context_for (rs : list string) : option context := match context_compile cf_alpha true (rules_of rs) with TOk x => Some x | _ => None end.
Definition has_classes (o : option context) (f : context -> classes) (l : list (class * list char)) : bool :=
  match o with
  | Some x => forallb (fun p => same_chars (cls_chars (f x) (fst p)) (snd p)) l
  | None => false
  end.
Example table_character_classes :
  has_classes (context_for ["lowercase a 1"; "lowercase b 12"; "lowercase c 14"; "base uppercase A a"; "base uppercase B b"; "space \s 0";
                            "litdigit 1 1"; "attribute foo abc"; "seqbeforechars xyz"]%string) x_chars
    [(CLetter, lit "abcAB"); (CLowercase, lit "abc"); (CUppercase, lit "AB"); (CSpace, lit " "); (CLitdigit, lit "1");
     (CSeqbeforechars, lit "xyz"); (CUser (lit "foo"), lit "abc")] = true.
Proof. vm_compute. reflexivity. Qed.
Example table_dots_classes_includes_alphabetic_always_rules :
  has_classes (context_for ["lowercase h 125"; "always le 246"; "always sz 234-1235"; "always -- 36"]%string) x_dots
    [(CLetter, cells [19; 42; 14; 23]%N)] = true.
Proof. vm_compute. reflexivity. Qed.
