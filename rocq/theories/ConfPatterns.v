(** Tests of patterns, operands, hyphenation and the interface, replayed on the model by hand
    (see [ConfBase]): src/translator/context_pattern.rs, src/translator/match_pattern.rs,
    src/translator/regexp.rs (captures), src/translator/translation.rs, src/translator/swap.rs,
    src/parser/match_rule.rs, src/parser/multipass/*.rs, src/parser/braille.rs, src/parser.rs,
    src/hyphenation.rs, src/lib.rs and src/translator.rs. *)
From Coq Require Import String.
From Verif Require Import Base BaseProofs RegexpModel RuleModel TranslationModel TableModel PatternModel OperandModel TrieModel BrailleModel
  HyphenationModel LoopModel CompileModel ConstraintModel IndicatorModel PipelineModel ParserModel IncludeModel TranslatorModel ConfBase ConfUnits.

Definition payload (ts : list target) (st : stage) : translation := Unresolved (mk_unresolved ts PDefault st [] None).
(** input, output, weight and offset of a piece *)
Definition shown_piece (t : resolved) : str * str * nat * nat := (r_input t, r_output t, r_weight t, r_offset t).
Definition piece (i o : string) (w off : nat) : str * str * nat * nat := (lit i, lit o, w, off).
Arguments piece i%string o%string.
Definition pattern_find (r : option regexp) (p : translation) (e : env) (at_start : bool) (input : string)
  : option (option (str * str * nat * nat)) :=
  match r with
  | Some r => match cpat_find cf_lower (mk_cpat r p) e at_start (lit input) with Ok t => Some (option_map shown_piece t) | _ => None end
  | None => None
  end.

(** ** regexp.rs: capture, capture_replace_with_literal, offset *)
Definition foobarfoo : regexp := RConcat (RString (lit "foo")) (RConcat (RCapture (RConcat RAny (RString (lit "ar")))) (RString (lit "foo"))).
Example regexp_capture :
  map (pattern_find (Some foobarfoo) (payload [TCapture] Main) [] true) ["foo"; "foobar"; "foobarfoo"; "fooxarfoo"; "foobarfoobar"; "aaaaaa"; "bbb"]%string
  = [Some None; Some None; Some (Some (piece "bar" "bar" 9 3)); Some (Some (piece "xar" "xar" 9 3));
     Some (Some (piece "bar" "bar" 9 3)); Some None; Some None].
Proof. vm_compute. reflexivity. Qed.
Example regexp_capture_replace_with_literal :
  map (pattern_find (Some foobarfoo) (payload [TLiteral (lit "baz")] Main) [] true) ["foo"; "foobar"; "foobarfoo"; "fooxarfoo"; "foobarfoobar"]%string
  = [Some None; Some None; Some (Some (piece "bar" "baz" 9 3)); Some (Some (piece "xar" "baz" 9 3)); Some (Some (piece "bar" "baz" 9 3))].
Proof. vm_compute. reflexivity. Qed.
Definition chain (s : string) (r : regexp) : regexp := fold_right (fun c r => RConcat (RegexpModel.RLiteral c) r) r (lit s).
Arguments chain s%string.
Example regexp_offset :
  map (pattern_find (Some (chain "foo" (RConcat (RCapture (chain "ba" (RegexpModel.RLiteral 114%N))) (chain "fo" (RegexpModel.RLiteral 111%N)))))
                    (Resolved (resolved_new (lit "bar") (lit "baz") 9 Main None)) [] true)
      ["foo"; "foobar"; "foobarfoo"; "foobarfoobar"; "aaaaaa"; "bbb"]%string
  = [Some None; Some None; Some (Some (piece "bar" "baz" 9 3)); Some (Some (piece "bar" "baz" 9 3)); Some None; Some None].
Proof. vm_compute. reflexivity. Qed.

(** ** match_pattern.rs *)
Definition patterns (sd : side) (s : string) : option (list pattern) := match parse_match_pattern sd (lit s) with Good p [] => Some p | _ => None end.
Arguments patterns sd s%string.
Definition post_regexp (l : list (class * string)) (s : string) : option regexp :=
  match patterns SPost s with Some p => re_of_patterns (classes_of l) p | None => None end.
Definition nothing : translation := payload [] Main.
Definition post_finds (l : list (class * string)) (s : string) (inputs : list string) :=
  map (pattern_find (post_regexp l s) nothing [] true) inputs.
Arguments post_finds l s%string.
Definition one : option (option (str * str * nat * nat)) := Some (Some (piece "" "" 1 0)).
Example match_find_pattern : post_finds [] "abc" ["abc"; "def"]%string = [Some (Some (piece "" "" 3 0)); Some None].
Proof. vm_compute. reflexivity. Qed.
Example match_find_either : post_finds [] "a|b" ["a"; "b"; "c"; "def"]%string = [one; one; Some None; Some None].
Proof. vm_compute. reflexivity. Qed.
Example match_find_attribute_digit : post_finds [(CDigit, "123")]%string "%[#]" ["1"; "2"; "3"; "def"]%string = [one; one; one; Some None].
Proof. vm_compute. reflexivity. Qed.
Example match_find_attribute_uppercase : post_finds [(CUppercase, "ABC")]%string "%[u]" ["A"; "C"; "def"]%string = [one; one; Some None].
Proof. vm_compute. reflexivity. Qed.
Example match_find_attribute_uppercase_punctuation_or_sign :
  post_finds [(CUppercase, "ABC"); (CPunctuation, ".,!"); (CSign, "%&/")]%string "%[.$u]" ["%"; "."; "A"; "def"]%string = [one; one; one; Some None].
Proof. vm_compute. reflexivity. Qed.
Example match_find_character_class : post_finds [] "[abc]" ["a"; "b"; "c"; "def"]%string = [one; one; one; Some None].
Proof. vm_compute. reflexivity. Qed.
Example match_find_character_class_one_or_more : post_finds [] "[abc]+" ["a"; "b"; "c"; "def"]%string = [one; one; one; Some None].
Proof. vm_compute. reflexivity. Qed.
Definition match_rules (l : list (class * string)) (rs : list (string * string * string * string)) (inputs : list (string * bool)) :=
  match fold_right (fun q acc => match q, acc with
                                 | (pre, chars, post, dots), Some ps =>
                                     match patterns SPre pre, patterns SPost post with
                                     | Some a, Some b => match match_insert (classes_of l) a (lit chars) b (lit dots) (RAlways (lit "foo") (Explicit []) (mk_constraints false false false) []) with
                                                         | TOk p => Some (p :: ps) | _ => None end
                                     | _, _ => None
                                     end
                                 | _, None => None
                                 end) (Some []) rs with
  | Some ps => map (fun i => match match_find cf_lower ps (snd i) (lit (fst i)) with Ok t => Some (map shown_piece t) | _ => None end) inputs
  | None => []
  end.
Example find_match :
  match_rules [] [("[abc]+", "foo", "[123]+", "")]%string [("afoo1", true); ("bfoo2", true); ("cccfoo333", true); ("def", true)]%string
  = [Some [piece "foo" "" 5 1]; Some [piece "foo" "" 5 1]; Some [piece "foo" "" 9 3]; Some []].
Proof. vm_compute. reflexivity. Qed.
Example find_multiple_match :
  match_rules [] [("[abc]+", "foo", "[1234567890]", "FOO"); ("[abc]+", "bar", "[1234567890]", "BAR")]%string
    [("aaafoo333", true); ("aaabar333", true); ("aaabaz333", true)]%string
  = [Some [piece "foo" "FOO" 7 3]; Some [piece "bar" "BAR" 7 3]; Some []].
Proof. vm_compute. reflexivity. Qed.
Example find_match_with_pre_boundary :
  match_rules [] [("^", "a", ".", "X")]%string [("ab", true); ("ab", false)]%string = [Some [piece "a" "X" 2 0]; Some []].
Proof. vm_compute. reflexivity. Qed.
Example find_match_with_pre_attribute_boundary :
  match_rules [(CUppercase, "ABC")]%string [("%[u^]", "x", ".", "X")]%string [("Axy", false); ("xy_", true); ("xy_", false)]%string
  = [Some [piece "x" "X" 3 1]; Some [piece "x" "X" 2 0]; Some []].
Proof. vm_compute. reflexivity. Qed.

(** ** context_pattern.rs *)
Definition test_regexp (l : list (class * string)) (s : string) : option regexp :=
  match parse_tests (lit s) with Good ts _ => re_of_instrs (classes_of l) ts | _ => None end.
Definition test_finds (l : list (class * string)) (s : string) (inputs : list string) :=
  map (pattern_find (test_regexp l s) (payload [TLiteral []] Main) [] true) inputs.
Arguments test_finds l s%string.
Example context_find_string : test_finds [] """abc""" ["abc"; "def"]%string = [Some (Some (piece "" "" 3 0)); Some None].
Proof. vm_compute. reflexivity. Qed.
Example context_find_attribute_digit : test_finds [(CDigit, "123")]%string "$d" ["1"; "2"; "3"; "def"]%string = [one; one; one; Some None].
Proof. vm_compute. reflexivity. Qed.
Example context_find_attribute_uppercase : test_finds [(CUppercase, "ABC")]%string "$U" ["A"; "C"; "def"]%string = [one; one; Some None].
Proof. vm_compute. reflexivity. Qed.
Example context_find_attribute_uppercase_punctuation_or_sign :
  test_finds [(CUppercase, "ABC"); (CPunctuation, ".,!"); (CSign, "%&/")]%string "$USp" ["%"; "."; "A"; "def"]%string = [one; one; one; Some None].
Proof. vm_compute. reflexivity. Qed.
Example context_find_character_class : test_finds [(CLetter, "abc")]%string "%letter" ["a"; "b"; "c"; "def"]%string = [one; one; one; Some None].
Proof. vm_compute. reflexivity. Qed.
Example context_find_character_class_three :
  test_finds [(CLetter, "abc")]%string "%letter3" ["abc"; "bbb"; "ccc"; "a"; "aa"; "def"]%string
  = repeat (Some (Some (piece "" "" 3 0))) 3 ++ [Some None; Some None; Some None].
Proof. vm_compute. reflexivity. Qed.
Example context_find_character_class_any :
  test_finds [(CLetter, "abc")]%string "%letter." ["a"; "b"; "c"; "y"; "bbb"; "ccc"; "def"]%string
  = [one; one; one; Some None; Some (Some (piece "" "" 3 0)); Some (Some (piece "" "" 3 0)); Some None].
Proof. vm_compute. reflexivity. Qed.
Example context_find_capture_with_character_class :
  test_finds [(CDigit, "123")]%string """a""[%digit]""b""" ["a1b"; "a2b"; "a3b"; "bbb"; "ccc"; "a"; "aa"; "def"]%string
  = [Some (Some (piece "1" "" 3 1)); Some (Some (piece "2" "" 3 1)); Some (Some (piece "3" "" 3 1))] ++ repeat (Some None) 5.
Proof. vm_compute. reflexivity. Qed.
Example context_find_capture_with_attribute :
  test_finds [(CDigit, "123"); (CUppercase, "ABC")]%string """a""[$dU]""b""" ["a1b"; "a2b"; "a3b"; "aAb"; "aBb"; "aCb"; "bbb"; "ccc"; "a"; "aa"; "def"]%string
  = map (fun c => Some (Some (piece c "" 3 1))) ["1"; "2"; "3"; "A"; "B"; "C"]%string ++ repeat (Some None) 5.
Proof. vm_compute. reflexivity. Qed.
Example context_find_capture_with_attribute_and_quantifier :
  test_finds [(CDigit, "123"); (CUppercase, "ABC")]%string """a""[$dU3]""b"""
    ["a1b"; "a22b"; "a31b"; "a123b"; "a222b"; "a321b"; "aABCb"; "aBBBb"; "aCBAb"; "bbb"; "ccc"; "a"; "aa"; "def"]%string
  = repeat (Some None) 3 ++ map (fun c => Some (Some (piece c "" 5 1))) ["123"; "222"; "321"; "ABC"; "BBB"; "CBA"]%string ++ repeat (Some None) 5.
Proof. vm_compute. reflexivity. Qed.
(** the rule [context] on a line *)
Definition context_rule (x : context) (tests actions : string) (st : stage) (e : env) (inputs : list (str * bool))
  : option (list (option (list (str * str * nat * nat)))) :=
  match parse_tests (lit tests), parse_actions (lit actions) with
  | Good ts _, Good acts _ =>
      match context_insert x ts acts (RContext ts acts (mk_constraints false false false)) st with
      | TOk p => Some (map (fun i => match cpats_find cf_lower [p] e (snd i) (fst i) with Ok l => Some (map shown_piece l) | _ => None end) inputs)
      | _ => None
      end
  | _, _ => None
  end.
Arguments context_rule x tests%string actions%string.
Example context_simple : context_rule context_empty """abc""" """A_B_C""" Main [] [(lit "abc", true); (lit "def", true)]
  = Some [Some [piece "abc" "A_B_C" 3 0]; Some []].
Proof. vm_compute. reflexivity. Qed.
Example context_capture : context_rule context_empty "[""abc""]" """<""*"">""" Main [] [(lit "abc", true); (lit "def", true)]
  = Some [Some [piece "abc" "<abc>" 3 0]; Some []].
Proof. vm_compute. reflexivity. Qed.
Example context_at_beginning_anchor : context_rule context_empty "`""a""" """X""" Main [] [(lit "a", true); (lit "a", false)]
  = Some [Some [piece "a" "X" 1 0]; Some []].
Proof. vm_compute. reflexivity. Qed.
Example context_at_end_anchor : context_rule context_empty """a""~" """X""" Main [] [(lit "a", true); (lit "ab", true)]
  = Some [Some [piece "a" "X" 1 0]; Some []].
Proof. vm_compute. reflexivity. Qed.
Example context_at_beginning_anchor_after_other_test :
  context_rule context_empty "#1=0`""a""" """X""" Main [(1, 0)]%N [(lit "a", true); (lit "a", false)] = Some [Some [piece "a" "X" 1 0]; Some []].
Proof. vm_compute. reflexivity. Qed.
Example context_negated_beginning_and_end_anchor :
  context_rule context_empty "!`""a""" """X""" Main [] [(lit "a", true); (lit "a", false)] = Some [Some []; Some [piece "a" "X" 1 0]].
Proof. vm_compute. reflexivity. Qed.
Example context_lookback_before_bracket_is_ignored_not_consumed :
  context_rule (context_of [(CDigit, "a")]%string) "_1$d[""b""]" """X""" Main [] [(lit "ab", true); (lit "bb", true)]
  = Some [Some [piece "b" "X" 2 1]; Some []].
Proof. vm_compute. reflexivity. Qed.
Example context_lookback_after_bracket_is_ignored_not_consumed :
  context_rule (context_of [(CDigit, "1")]%string) "[""b""]!$d_" """X""" Main [] [(lit "bz", true); (lit "b1", true)]
  = Some [Some [piece "b" "X" 2 0]; Some []].
Proof. vm_compute. reflexivity. Qed.
Example context_beginning_and_end_anchor_regression :
  context_rule context_empty "`[""-""]~" "*" Main [] [(lit "-", true); (lit "-0", true); (lit "-", false)]
  = Some [Some [piece "-" "-" 1 0]; Some []; Some []].
Proof. vm_compute. reflexivity. Qed.
Example context_capture_with_class :
  context_rule (mk_context [] [(CUser (lit "accent"), 900%N)] [(CUser (lit "accent"), 10256%N)] []) "@135[%accent]@13456" "*@136" Post1 []
    [(cells [21; 16; 61]%N, true); (cells [21]%N, true)]
  = Some [Some [(cells [16]%N, cells [16; 37]%N, 3, 1)]; Some []].
Proof. vm_compute. reflexivity. Qed.
Example context_capture_advanced :
  context_rule (context_of [(CPunctuation, "{}")]%string) "$p3[""abc""]$p3" """<""*"">""" Main [] [(lit "{{{abc}}}", true); (lit "def", true)]
  = Some [Some [piece "abc" "<abc>" 9 3]; Some []].
Proof. vm_compute. reflexivity. Qed.
Example context_swap :
  context_rule (mk_context [] (classes_of [(CPunctuation, "{}")]%string) [] [(lit "foo", swapper_new [(97, lit "A"); (98, lit "B"); (99, lit "C")]%N)])
    "$p3[""abc""]$p3" """<""%foo"">""" Main [] [(lit "{{{abc}}}", true); (lit "def", true)]
  = Some [Some [piece "abc" "<ABC>" 9 3]; Some []].
Proof. vm_compute. reflexivity. Qed.

(** ** translation.rs and swap.rs *)
Example swapper_swap :
  map (swap (swapper_new [(97, cells [1]); (98, cells [9]); (99, cells [25; 7])]%N)) [lit "abc"; lit "xyz"] = [cells [1; 9; 25; 7]%N; lit "xyz"].
Proof. vm_compute. reflexivity. Qed.
Example swapper_empty : swap (swapper_new []) (lit "hello") = lit "hello".
Proof. vm_compute. reflexivity. Qed.
Example swapper_unicode : swap (swapper_new [(945, lit "alpha"); (128640, lit "rocket")]%N) [945; 128640]%N = lit "alpharocket".
Proof. vm_compute. reflexivity. Qed.
Example swap_classes_nonexistent : swaps_get [] (lit "nonexistent") = None.
Proof. vm_compute. reflexivity. Qed.
Example resolve_targets :
  map (fun t => target_resolve (fst t) (lit (snd t)))
      [(TLiteral (lit "foo"), "bar"); (TCapture, "CAPTURED"); (TSwap (swapper_new [(97, lit "A"); (98, lit "B"); (99, lit "C")]%N), "abc")]%string
  = map (fun s => TLiteral (lit s)) ["foo"; "CAPTURED"; "ABC"]%string.
Proof. vm_compute. reflexivity. Qed.
Example translation_capture :
  map (fun t => match translation_resolve (payload (fst t) Main) (snd t) 8 0 with Ok r => Some (r_input r, r_output r, r_length r) | _ => None end)
      [([TCapture], lit ""); ([TCapture], lit "captured"); ([TLiteral (lit "<"); TCapture; TLiteral (lit ">")], lit "MIDDLE");
       ([TLiteral (lit "<"); TSwap (swapper_new [(120, lit "X"); (121, lit "Y")]%N); TLiteral (lit ">")], lit "xyz");
       ([TCapture], [99; 97; 102; 233; 128640; 128640]%N)]
  = [Some (lit "", lit "", 0); Some (lit "captured", lit "captured", 8); Some (lit "MIDDLE", lit "<MIDDLE>", 6);
     Some (lit "xyz", lit "<XYz>", 3); Some ([99; 97; 102; 233; 128640; 128640]%N, [99; 97; 102; 233; 128640; 128640]%N, 6)].
Proof. vm_compute. reflexivity. Qed.

(** ** match_rule.rs *)
Definition attrs (l : list class) : list attribute := map AClass l.
Example match_rule_attribute :
  map (m_attributes SPre) [lit "%[al.]"; lit "%[a]"; lit "%[]"; lit "%[a."; lit "%[[]"; lit "%a"]
  = [Good (PAttributes (attrs [CLetter; CLowercase; CPunctuation])) []; Good (PAttributes (attrs [CLetter])) []; Bad; Bad; Bad;
     Good (PAttributes (attrs [CLetter])) []].
Proof. vm_compute. reflexivity. Qed.
Example match_rule_boundary :
  [patterns SPre "^"; patterns SPost "$"; patterns SPre "$"; patterns SPost "%[^]"; patterns SPre "%[u^]"]
  = map Some [[PBoundary SPre]; [PBoundary SPost]; [PBoundary SPre]; [PBoundary SPost]; [PAttributesOrBoundary (attrs [CUppercase]) SPre]].
Proof. vm_compute. reflexivity. Qed.
Example match_rule_set :
  map m_set [lit "[abc]"; lit "[abc"; lit "[abc\]]"; lit "[)}\]]"; lit "[\a]]"]
  = [Good (PSet (lit "abc")) []; Bad; Good (PSet (lit "abc]")) []; Good (PSet (lit ")}]")) []; Bad].
Proof. vm_compute. reflexivity. Qed.
Example match_rule_negate : map (patterns SPre) ["!a"; "!!a"; "!!a+"]%string = [Some [PNegate (PCharacters (lit "a"))]; None; None].
Proof. vm_compute. reflexivity. Qed.
Example match_rule_group :
  map (patterns SPre) ["(abc)"; "([abc])"; "()"]%string
  = [Some [PGroup [PCharacters (lit "abc")]]; Some [PGroup [PSet (lit "abc")]]; None].
Proof. vm_compute. reflexivity. Qed.
Definition letter (s : string) : list pattern := [PCharacters (lit s)].
Arguments letter s%string.
Example match_rule_either :
  map (patterns SPre) ["a|b"; "a|b|c"; "a+|[bc]?"; "(a|b)"; "|a"; "a|"; "e%[^_.]|end"]%string
  = [Some [PEither (letter "a") (letter "b")]; Some [PEither [PEither (letter "a") (letter "b")] (letter "c")];
     Some [PEither [POneOrMore (PCharacters (lit "a"))] [POptional (PSet (lit "bc"))]];
     Some [PGroup [PEither (letter "a") (letter "b")]]; None; None;
     Some [PEither (letter "e" ++ [PAttributesOrBoundary (attrs [CSpace; CPunctuation]) SPre]) (letter "end")]].
Proof. vm_compute. reflexivity. Qed.
Example match_rule_pattern :
  map (patterns SPre) ["abc"; "(abc)"; "(abc)?"; "(abc)+"; "(abc)*"; "a**"; "-"; ")"; "a)"]%string
  = [Some (letter "abc"); Some [PGroup (letter "abc")]; Some [POptional (PGroup (letter "abc"))]; Some [POneOrMore (PGroup (letter "abc"))];
     Some [PZeroOrMore (PGroup (letter "abc"))]; None; Some [PEmpty]; None; None].
Proof. vm_compute. reflexivity. Qed.

(** ** multipass/action.rs *)
Example action_dots : map (fun s => parse_actions (lit s)) ["@123"; "@"; "@-"; "@1-2"]%string
  = [Good [ActDots (cells [7]%N)] []; Bad; Bad; Good [ActDots (cells [1; 2]%N)] []].
Proof. vm_compute. reflexivity. Qed.
Example action_string : map (fun s => parse_actions (lit s)) ["""test"""; """,_"""; """, """; """-\"""""; """.\s\"""""]%string
  = map (fun s => Good [ActString (lit s)] []) ["test"; ",_"; ", "; "-"""; ". """]%string.
Proof. vm_compute. reflexivity. Qed.
Example action_others : map (fun s => p_action (lit s)) ["*"; "?"; "#1=42"; "#42=1"; "#5+"; "#5-"; "#1="; "#5<"; "#a=1"; "%foo"; "%42"]%string
  = [Good ActReplace []; Good ActIgnore []; Good (ActAssignment 1 42) []; Good (ActAssignment 42 1) []; Good (ActIncrement 5) (lit "+");
     Good (ActDecrement 5) (lit "-"); Bad; Bad; Bad; Good (ActSwapClass (lit "foo")) []; Bad].
Proof. vm_compute. reflexivity. Qed.
Example action_actions : map (fun s => parse_actions (lit s)) ["?""haha"""; "@123#1=0_too much input"]%string
  = [Good [ActIgnore; ActString (lit "haha")] []; Bad].
Proof. vm_compute. reflexivity. Qed.
Example action_swap_class : parse_actions (37 :: 20140 :: nil)%N = Bad /\ parse_actions (lit "%hall" ++ [246%N] ++ lit "chen") = Bad.
Proof. vm_compute. split; reflexivity. Qed.

(** ** multipass/test.rs *)
Example test_ascii_number : map (fun s => ascii_number (lit s)) ["123"; "1"; "1 "; "1abc"; " 1"; "a1"]%string
  = [Good 123%N []; Good 1%N []; Good 1%N (lit " "); Good 1%N (lit "abc"); Bad; Bad].
Proof. vm_compute. reflexivity. Qed.
Example test_dots : map (fun s => parse_tests (lit s)) ["@123"; "@"; "@-"; "@1-2"]%string
  = [Good [TDots (cells [7]%N)] []; Bad; Bad; Good [TDots (cells [1; 2]%N)] []].
Proof. vm_compute. reflexivity. Qed.
Example test_string : map (fun s => parse_tests (lit s)) ["""test"""; """,_"""; """, """; """-\"""""; """.\s\"""""]%string
  = map (fun s => Good [TString (lit s)] []) ["test"; ",_"; ", "; "-"""; ". """]%string.
Proof. vm_compute. reflexivity. Qed.
Example test_negate : map (fun s => parse_tests (lit s)) ["!""a"""; "!!""a"""; "![$d]"]%string = [Good [TNegate (TString (lit "a"))] []; Bad; Bad].
Proof. vm_compute. reflexivity. Qed.
Example test_lookback : map (fun s => p_lookback (lit s)) ["_123"; "_7"; "_ "; "_abc"; "_12abc"; " _ "]%string
  = [Good (TLookback 123) []; Good (TLookback 7) []; Good (TLookback 1) (lit " "); Good (TLookback 1) (lit "abc"); Good (TLookback 12) (lit "abc"); Bad].
Proof. vm_compute. reflexivity. Qed.
Example test_attributes : map (fun s => p_attributes (lit s)) ["$a"; "$ay"; "$"; "$h"; "$a "; "$a."; "$a3"; "$a3-5"; "$a1-"; "$a1-a"]%string
  = [Good (TAttributes [AAny] None) []; Good (TAttributes [AAny; AByOrder 3] None) []; Bad; Bad; Good (TAttributes [AAny] None) (lit " ");
     Good (TAttributes [AAny] (Some QOneOrMore)) []; Good (TAttributes [AAny] (Some (QNumber 3))) [];
     Good (TAttributes [AAny] (Some (QRange 3 5))) []; Bad; Bad].
Proof. vm_compute. reflexivity. Qed.
Example test_class : map p_class (map lit ["%foo"; "%3"; "%"; "% "; "%8"; "%foo."; "%foo20"; "%foo1-20"; "%foo20-200"; "%foo200-20"]%string ++ [[37; 128002]%N])
  = [Good (TClass (lit "foo") None) []; Good (TClass (lit "3") None) []; Bad; Bad; Bad; Good (TClass (lit "foo") (Some QOneOrMore)) [];
     Good (TClass (lit "foo") (Some (QNumber 20))) []; Good (TClass (lit "foo") (Some (QRange 1 20))) [];
     Good (TClass (lit "foo") (Some (QRange 20 200))) []; Bad; Bad].
Proof. vm_compute. reflexivity. Qed.
Example test_variable : map (fun s => p_variable (lit s)) ["#1<2"; "#1<=2"; "#1=3"; "#a=3"; "#3=a"; "#"; "#3"; "#3="]%string
  = [Good (TVariable 1 OpLt 2) []; Good (TVariable 1 OpLtEq 2) []; Good (TVariable 1 OpEq 3) []; Bad; Bad; Bad; Bad; Bad].
Proof. vm_compute. reflexivity. Qed.
Example test_tests : map (fun s => parse_tests (lit s))
  ["[$d]"; "[%foo]"; "[,,,]"; "$d[""hello""]%digitletter"; "@123#1=0&too much input"; "`""a"""; """a""~"; "#1=0`[""'""]"; "!`"; "!~"]%string
  = [Good [TReplace [TAttributes [AClass CDigit] None]] []; Good [TReplace [TClass (lit "foo") None]] []; Bad;
     Good [TAttributes [AClass CDigit] None; TReplace [TString (lit "hello")]; TClass (lit "digitletter") None] []; Bad;
     Good [TAtBeginning; TString (lit "a")] []; Good [TString (lit "a"); TAtEnd] [];
     Good [TVariable 1 OpEq 0; TAtBeginning; TReplace [TString (lit "'")]] []; Good [TNegate TAtBeginning] []; Good [TNegate TAtEnd] []].
Proof. vm_compute. reflexivity. Qed.

(** ** hyphenation.rs (without huge_hyphenmin_does_not_overflow: the model's numbers are unary) *)
Definition nl : string := String.String (Ascii.ascii_of_nat 10) String.EmptyString.
Definition dictionary_of (ls : list string) : hyph_error + hyph := cf_hyph (flat_map (fun l => lit l ++ lit nl) ls).
Definition minima (t : hyph_error + hyph) : option (nat * nat) := match t with inr h => Some (h_left h, h_right h) | inl _ => None end.
Definition breaks (t : hyph_error + hyph) (w : string) : option (list bool) :=
  match t with inr h => match break_points h (lit w) with Ok b => Some b | _ => None end | inl _ => None end.
Arguments breaks t w%string.
Example reads_hyphenmin_header : minima (dictionary_of ["UTF-8"; "LEFTHYPHENMIN 2"; "RIGHTHYPHENMIN 3"; ".ab3a"]%string) = Some (2, 3).
Proof. vm_compute. reflexivity. Qed.
Example defaults_when_header_absent : minima (dictionary_of ["UTF-8"; ".ab3a"]%string) = Some (1, 1).
Proof. vm_compute. reflexivity. Qed.
Example rejects_malformed_header_value : minima (dictionary_of ["UTF-8"; "LEFTHYPHENMIN two"; ".ab3a"]%string) = None.
Proof. vm_compute. reflexivity. Qed.
Example rejects_iso8859_1_encoding : minima (dictionary_of ["ISO8859-1"; ".ab3a"]%string) = None.
Proof. vm_compute. reflexivity. Qed.
Example finds_a_break : breaks (dictionary_of ["UTF-8"; "LEFTHYPHENMIN 1"; "RIGHTHYPHENMIN 1"; ".ab3a"]%string) "aba" = Some [false; true].
Proof. vm_compute. reflexivity. Qed.
Example respects_minima : breaks (dictionary_of ["UTF-8"; "LEFTHYPHENMIN 2"; "RIGHTHYPHENMIN 2"; ".ab3a"]%string) "aba" = Some [false; false].
Proof. vm_compute. reflexivity. Qed.
Example no_match_means_no_breaks : breaks (dictionary_of ["UTF-8"; "s1b"]%string) "fff" = Some [false; false].
Proof. vm_compute. reflexivity. Qed.
Example skips_comments_and_blank_lines :
  breaks (dictionary_of ["UTF-8"; "# a comment"; ""; "% also a comment"; ".ab3a"]%string) "aba" = Some [false; true].
Proof. vm_compute. reflexivity. Qed.
Example short_word_has_no_gaps : map (breaks (dictionary_of ["UTF-8"; ".ab3a"]%string)) [""; "a"]%string = [Some []; Some []].
Proof. vm_compute. reflexivity. Qed.

(** ** lib.rs *)
Definition source (ls : list string) : str := flat_map (fun l => lit l ++ lit nl) ls.
Definition from_source (ls : list string) : new_result :=
  translator_from_source cf_ws cf_alpha true (fun l => l) (fun l => l) (cf_fs []) (trim cf_ws) cf_utf8 cf_latin1 cf_usize (source ls) Forward.
Example translator_from_table_source :
  match from_source ["space \s 0"; "letter a 1"; "letter b 12"]%string with
  | Built t => pipeline_translate_with cf_lower cf_upper cf_sort t (lit "ab") options_default = Ok (cells [1; 3]%N)
  | _ => False
  end.
Proof. vm_compute. reflexivity. Qed.
Example translator_from_table_source_rejects_include :
  match from_source ["include en-us-g1.ctb"]%string with Refused (ParseFailed [TIncludesInMemory]) => True | _ => False end.
Proof. vm_compute. exact I. Qed.
Definition pieces (l : list (string * nat)) : list resolved := map (fun p => resolved_new (lit (fst p)) (repeat 10241%N (snd p)) 0 Main None) l.
Definition position_cases : list (list resolved) :=
  map pieces [[("abc", 3)]; [("foo", 1)]; [("foo", 2)]; [("a", 3)]; [("abc", 3); ("abc", 3)]; [("foo", 1); ("abc", 3)]; [("a", 3); ("abc", 3)]]%string.
Example lib_output_positions :
  map output_positions position_cases = [[0; 1; 2]; [0; 0; 0]; [0; 1; 1]; [0]; [0; 1; 2; 3; 4; 5]; [0; 0; 0; 1; 2; 3]; [0; 3; 4; 5]].
Proof. vm_compute. reflexivity. Qed.
Example lib_input_positions :
  map input_positions position_cases = [[0; 1; 2]; [0]; [0; 1]; [0; 0; 0]; [0; 1; 2; 3; 4; 5]; [0; 3; 4; 5]; [0; 0; 0; 1; 2; 3]].
Proof. vm_compute. reflexivity. Qed.

(** ** table.rs: dots_classes *)
Example table_dots_classes :
  has_classes match context_compile cf_alpha true (rules_of ["lowercase o 135"; "pass2 @135[%accent]@13456 *@136"]%string ++
                flat_map (fun l => match cf_rule l with Some r => [r] | None => [] end)
                  [lit "lowercase " ++ [973%N] ++ lit " 5-13456"; lit "sign " ++ [900%N] ++ lit " 5"; lit "attribute accent " ++ [900%N]]) with
              | TOk x => Some x | _ => None end x_dots
    [(CLetter, cells [21]%N); (CLowercase, cells [21]%N); (CSign, cells [16]%N); (CUppercase, []); (CSpace, []); (CLitdigit, []);
     (CSeqbeforechars, []); (CUser (lit "accent"), cells [16]%N)] = true.
Proof. vm_compute. reflexivity. Qed.

(** ** parser.rs *)
Definition parsed_rule (s : string) : parse rule := p_rule (tokens (lit s)).
Arguments parsed_rule s%string.
Example parser_constraints :
  map (fun s => fst (p_constraints (tokens (lit s)))) ["nocross"; "nocross nofor"; "nofor nocross"; "nofor"; " nofor "; ""]%string
  = [mk_constraints false false true; mk_constraints false false true; mk_constraints true false true; mk_constraints true false false;
     mk_constraints true false false; mk_constraints false false false].
Proof. vm_compute. reflexivity. Qed.
Example unicode_surrogate_pairs :
  map (fun s => unescape EscDefault (lit s)) ["\x0041"; "\xD83C\xDF11"; "\xD83D"]%string
  = [Good [65%N] []; Good [127761%N] []; Good [65533%N] []].
Proof. vm_compute. reflexivity. Qed.
Example nocontractsign_and_nonumsign_honor_direction :
  map (fun s => match parsed_rule s with Parsed r _ => Some (is_direction Forward r, is_direction Backward r) | _ => None end)
      ["noback nonumsign 156"; "nofor nocontractsign 56"; "nonumsign 156"]%string
  = [Some (true, false); Some (false, true); Some (true, true)].
Proof. vm_compute. reflexivity. Qed.
Example fail_if_invalid_constraints :
  map (fun p => p_check (fst p) (snd p) OSpace [])
      [(mk_constraints false false false, mk_constraints false false false); (mk_constraints false false false, mk_constraints true false false);
       (mk_constraints false false false, mk_constraints true false true); (mk_constraints true true false, mk_constraints true false true)]
  = [Parsed tt []; Failed (EConstraints (mk_constraints true false false) OSpace);
     Failed (EConstraints (mk_constraints true false true) OSpace); Failed (EConstraints (mk_constraints false false true) OSpace)].
Proof. vm_compute. reflexivity. Qed.
Example withclasses : fst (p_classes (tokens (lit "before foo after bar"))) = Some [WBefore (lit "foo"); WAfter (lit "bar")] /\
  fst (p_classes (tokens (lit "before foo after"))) = None.
Proof. vm_compute. split; reflexivity. Qed.
Example parser_opcode :
  map (fun s => match p_opcode (tokens (lit s)) with Parsed o _ => Some (inl o) | Failed e => Some (inr e) | _ => None end)
      ["include"; "always foo after"; "h"; "hello world"]%string
  = [Some (inl OInclude); Some (inl OAlways); Some (inr (EOpcode (Some (lit "h")))); Some (inr (EOpcode (Some (lit "hello"))))].
Proof. vm_compute. reflexivity. Qed.
Example with_matches : map (fun s => p_with_matches (tokens (lit s))) ["empmatchafter match"; "empmatchbefore match"; "match"; "empmatchbefore empmatchafter match"]%string
  = repeat [lit "match"] 4.
Proof. vm_compute. reflexivity. Qed.
Example parser_rule :
  map parsed_rule ["include foo.ctb"; "include"; "Include foo.ctb"; "display a 1"; "noback correct ""a"" ""b"""]%string
  = [Parsed (RInclude (lit "foo.ctb")) []; Failed EFilenameExpected; Failed (EOpcode (Some (lit "Include")));
     Parsed (RDisplay 97%N 10241%N (mk_constraints false false false)) [];
     Parsed (RCorrect [TString (lit "a")] [ActString (lit "b")] (mk_constraints false true false)) []].
Proof. vm_compute. reflexivity. Qed.
Example parser_swapdd :
  parsed_rule "swapdd cancelcontraction 2a,23a 1-12,12-1235"
  = Parsed (RSwapdd (lit "cancelcontraction") [0xf0202; 0xf0206]%N [[10241; 10243]; [10243; 10263]]%N) [] /\
  parsed_rule "swapdd Aheadbrl 156,156-2,24,124 156,156-2,24,124" = Failed (ESingleCell (lit "156-2")).
Proof. vm_compute. split; reflexivity. Qed.
Example parser_grouping :
  parsed_rule "grouping brackets () 123,145" = Parsed (RGrouping (lit "brackets") (lit "()") 10247%N 10265%N) [] /\
  parsed_rule "grouping brackets () 123" = Failed EDotsTuple.
Proof. vm_compute. split; reflexivity. Qed.
Definition files (l : list (string * string)) : file_system := cf_fs (map (fun p => (lit (fst p), lit (snd p) ++ lit nl)) l).
Definition expanded (l : list (string * string)) (f : string) := table_expanded cf_ws (files l) (lit f).
Arguments expanded l f%string.
Example table_expanded_rejects_self_include :
  match expanded [("a.utb", "include a.utb")]%string "a.utb" with Some (inr [TCircular _]) => True | _ => False end.
Proof. vm_compute. exact I. Qed.
Example table_expanded_rejects_indirect_cycle :
  match expanded [("a.utb", "include b.utb"); ("b.utb", "include a.utb")]%string "a.utb" with Some (inr [TCircular _]) => True | _ => False end.
Proof. vm_compute. exact I. Qed.
Fixpoint unary (n : nat) : string := match n with 0 => "n" | S m => String.append "c" (unary m) end.
Example table_expanded_rejects_deep_include_chain :
  match expanded (("n", "space \s 0")%string :: map (fun i => (unary i, String.append "include " (unary (i - 1)))) (seq 1 64)) (unary 64) with
  | Some (inr [TTooDeep _]) => True | _ => False end.
Proof. vm_compute. exact I. Qed.
Example table_expanded_allows_diamond_include :
  match expanded [("base.utb", "space \s 0"); ("left.utb", "include base.utb"); ("right.utb", "include base.utb");
                  ("top.utb", String.append "include left.utb" (String.append nl "include right.utb"))]%string "top.utb" with
  | Some (inl [_; _]) => True | _ => False end.
Proof. vm_compute. exact I. Qed.

(** ** braille.rs *)
Definition cell_text (s : string) : option str := match cells_of_str (lit s) with POk l => match cells_to_string l with Ok t => Some t | _ => None end | _ => None end.
Example braille_dots : map cell_text ["123"; "1a"; "a"; "z"; "1-1"; "1-"; "-1"; "-"; ""; "18"; "19"]%string
  = [Some [10247%N]; Some [0xf0201%N]; Some [0xf0200%N]; None; Some [10241; 10241]%N; None; None; None; None; Some [0x2881%N]; Some [0xf0101%N]].
Proof. vm_compute. reflexivity. Qed.

(** ** translator.rs *)
Example translator_resolve_implicit_dots :
  match resolve_implicit [] (lit "xs") with TErr _ => True | _ => False end.
Proof. vm_compute. exact I. Qed.
Example translator_resolve_implicit_dots_defined :
  resolve_implicit (defs_insert true (defs_insert true [] 97%N (lit "A")) 104%N (lit "H")) (lit "haha") = TOk (lit "HAHA").
Proof. vm_compute. reflexivity. Qed.
Example translator_display_table :
  map (display_translate (display_compile true (rules_of ["display a 1"; "display \s 0"]%string) Forward)) [[10241%N]; [10240%N]; []; lit "x"]
  = [lit "a"; lit " "; []; lit "x"].
Proof. vm_compute. reflexivity. Qed.
Example translator_translate_with_display :
  match from_source ["letter a 1"; "space \s 0"]%string with
  | Built t => map (fun s => match pipeline_translate_with cf_lower cf_upper cf_sort t (lit s) options_default with
                             | Ok out => display_translate (display_compile true (rules_of ["display A 1"; "display \s 0"]%string) Forward) out
                             | _ => [] end) ["a"; " "; "a a"]%string = [lit "A"; lit " "; lit "A A"]
  | _ => False
  end.
Proof. vm_compute. reflexivity. Qed.
