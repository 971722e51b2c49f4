(** Model of the parser of table lines: [RuleParser] (src/parser.rs:1185-2378) and [table]
    (src/parser.rs:2458-2487).

    Simplifications.  The dots of a rule are converted to Unicode cells here (in the code
    when the rule is compiled; BrailleModel.v shows the conversion never fails).  The
    [matches] of a match rule are parsed and dropped (the code never uses them,
    RuleModel.v).  The errors of [unescape], of the operand parsers and of [parse::<i32>]
    are not told apart. *)
From Coq Require Import Strings.String ZArith.
From Coq Require Import List.
From Verif Require Import Base RuleModel BrailleModel OperandModel.

(** parser.rs:201-330 [Opcode]. *)
Inductive opcode :=
 | OInclude | OUndefined | ODisplay | OMultind | OSpace | OPunctuation | ODigit | OGrouping | OLetter
 | OBase | OLowercase | OUppercase | OLitdigit | OSign | OMath | OModeletter | OCapsletter | OBegmodeword
 | OBegcapsword | OEndcapsword | OCapsmodechars | OBegcaps | OEndcaps | OBegcapsphrase | OEndcapsphrase
 | OLencapsphrase | OLetsign | ONoletsign | ONoletsignbefore | ONoletsignafter | ONocontractsign | ONumsign
 | ONonumsign | ONumericnocontchars | ONumericmodechars | OMidendnumericmodechars | OBegmodephrase | OEndmodephrase
 | OLenmodephrase | OSeqdelimiter | OSeqbeforechars | OSeqafterchars | OSeqafterpattern | OSeqafterexpression
 | OClass | OEmphclass | OBegemph | OEndemph | ONoemphchars | OEmphletter | OBegemphword | OEndemphword
 | OEmphmodechars | OBegemphphrase | OEndemphphrase | OLenemphphrase | ODecpoint | OHyphen | OCapsnocont
 | OCompbrl | OComp6 | ONocont | OReplace | OAlways | ORepeated | ORepword | ORependword | OLargesign
 | OWord | OSyllable | OJoinword | OLowword | OContraction | OSufword | OPrfword | OBegword | OBegmidword
 | OMidword | OMidendword | OEndword | OPartword | OExactdots | OPrepunc | OPostpunc | OBegnum | OMidnum
 | OEndnum | OJoinnum | OBegcomp | OEndcomp | OAttribute | OSwapcd | OSwapdd | OSwapcc | OContext | OPass2
 | OPass3 | OPass4 | OCorrect | OMatch | OLiteral.


(** parser.rs:140-197 [ParseError]. *)
Inductive parse_error :=
| ETokenExpected (found : option str)
| EInvalidBraille (c : option char)
| EDotsExpected
| EDotsTuple
| ESwapNumbers (a b : nat)
| ESingleCell (found : str)
| EEscape
| EInvalidNumber
| EInvalidName (name : str)
| EConstraints (k : constraints) (op : opcode)
| EOpcode (found : option str)
| ENameExpected
| ECharsExpected
| EFilenameExpected
| ENumberExpected
| ETestExpected
| EActionExpected
| EMultipass
| EMatchPattern
| EPreExpected
| EPostExpected
| ESingleChar (found : option str).

(** A parser takes the tokens that are left, parser.rs:1214-1223 ([RuleParser], [new]). *)
Inductive parse (A : Type) : Type := Parsed (a : A) (rest : list str) | Failed (e : parse_error) | ParseNoFuel.
Arguments Parsed {A} a rest.
Arguments Failed {A} e.
Arguments ParseNoFuel {A}.
Definition parser (A : Type) : Type := list str -> parse A.
Definition p_return {A} (a : A) : parser A := fun ts => Parsed a ts.
Definition p_fail {A} (e : parse_error) : parser A := fun _ => Failed e.
Definition rbind {A B} (p : parser A) (f : A -> parser B) : parser B :=
  fun ts => match p ts with Parsed a r => f a r | Failed e => Failed e | ParseNoFuel => ParseNoFuel end.
Notation "'rdo' x <- p ; f" := (rbind p (fun x => f))
  (at level 60, x name, p at level 59, right associativity).
Notation "'rdo' '_' <- p ; f" := (rbind p (fun _ => f))
  (at level 60, p at level 59, right associativity).
(** [self.tokens.next().ok_or(e)] *)
Definition p_token (e : parse_error) : parser str :=
  fun ts => match ts with t :: r => Parsed t r | [] => Failed e end.
(** an operand parser of OperandModel.v on one token *)
Definition p_operand {A} (e : parse_error) (f : str -> pr A) (t : str) : parser A :=
  fun ts => match f t with Good a _ => Parsed a ts | Bad => Failed e | NoFuel => ParseNoFuel end.

(** ** The marks of a rule *)
(** [next_if_eq], parser.rs:1225-1235. *)
Definition next_if (s : str) (ts : list str) : bool * list str :=
  match ts with
  | t :: r => if str_eqb t s then (true, r) else (false, ts)
  | [] => (false, [])
  end.
(** parser.rs:1237-1248 [constraints]. *)
Definition p_constraints (ts : list str) : constraints * list str :=
  let '(f, ts1) := next_if (lit "nofor") ts in
  let '(b, ts2) := if f then (false, ts1) else next_if (lit "noback") ts1 in
  let '(x, ts3) := next_if (lit "nocross") ts2 in
  (mk_constraints f b x, ts3).
(** parser.rs:1250-1282 [with_class], [with_classes], and the [unwrap_or_default] of
    parser.rs:1639: a missing class name drops the classes read so far. *)
Fixpoint p_classes (ts : list str) : option (list with_class) * list str :=
  match ts with
  | t :: r =>
      if str_eqb t (lit "before") then
        match r with
        | c :: r' => let '(o, rest) := p_classes r' in (option_map (cons (WBefore c)) o, rest)
        | [] => (None, [])
        end
      else if str_eqb t (lit "after") then
        match r with
        | c :: r' => let '(o, rest) := p_classes r' in (option_map (cons (WAfter c)) o, rest)
        | [] => (None, [])
        end
      else (Some [], ts)
  | [] => (Some [], [])
  end.
Definition p_with_classes (ts : list str) : list with_class * list str :=
  let '(o, r) := p_classes ts in (match o with Some l => l | None => [] end, r).
(** parser.rs:1284-1302 [with_matches]; the result is not kept. *)
Fixpoint p_with_matches (ts : list str) : list str :=
  match ts with
  | t :: r => if (str_eqb t (lit "empmatchbefore") || str_eqb t (lit "empmatchafter"))%bool then p_with_matches r else ts
  | [] => []
  end.

(** ** Operands *)
(** the names, parser.rs:1306-1432 *)
Definition opcode_table : list (str * opcode) := [
  (lit "include", OInclude);
  (lit "undefined", OUndefined);
  (lit "display", ODisplay);
  (lit "multind", OMultind);
  (lit "space", OSpace);
  (lit "punctuation", OPunctuation);
  (lit "digit", ODigit);
  (lit "grouping", OGrouping);
  (lit "letter", OLetter);
  (lit "base", OBase);
  (lit "lowercase", OLowercase);
  (lit "uppercase", OUppercase);
  (lit "litdigit", OLitdigit);
  (lit "sign", OSign);
  (lit "math", OMath);
  (lit "modeletter", OModeletter);
  (lit "capsletter", OCapsletter);
  (lit "begmodeword", OBegmodeword);
  (lit "begcapsword", OBegcapsword);
  (lit "endcapsword", OEndcapsword);
  (lit "capsmodechars", OCapsmodechars);
  (lit "begcaps", OBegcaps);
  (lit "endcaps", OEndcaps);
  (lit "begcapsphrase", OBegcapsphrase);
  (lit "endcapsphrase", OEndcapsphrase);
  (lit "lencapsphrase", OLencapsphrase);
  (lit "letsign", OLetsign);
  (lit "noletsign", ONoletsign);
  (lit "noletsignbefore", ONoletsignbefore);
  (lit "noletsignafter", ONoletsignafter);
  (lit "nocontractsign", ONocontractsign);
  (lit "numsign", ONumsign);
  (lit "nonumsign", ONonumsign);
  (lit "numericnocontchars", ONumericnocontchars);
  (lit "numericmodechars", ONumericmodechars);
  (lit "midendnumericmodechars", OMidendnumericmodechars);
  (lit "begmodephrase", OBegmodephrase);
  (lit "endmodephrase", OEndmodephrase);
  (lit "lenmodephrase", OLenmodephrase);
  (lit "seqdelimiter", OSeqdelimiter);
  (lit "seqbeforechars", OSeqbeforechars);
  (lit "seqafterchars", OSeqafterchars);
  (lit "seqafterpattern", OSeqafterpattern);
  (lit "seqafterexpression", OSeqafterexpression);
  (lit "class", OClass);
  (lit "emphclass", OEmphclass);
  (lit "begemph", OBegemph);
  (lit "endemph", OEndemph);
  (lit "noemphchars", ONoemphchars);
  (lit "emphletter", OEmphletter);
  (lit "begemphword", OBegemphword);
  (lit "endemphword", OEndemphword);
  (lit "emphmodechars", OEmphmodechars);
  (lit "begemphphrase", OBegemphphrase);
  (lit "endemphphrase", OEndemphphrase);
  (lit "lenemphphrase", OLenemphphrase);
  (lit "decpoint", ODecpoint);
  (lit "hyphen", OHyphen);
  (lit "capsnocont", OCapsnocont);
  (lit "compbrl", OCompbrl);
  (lit "comp6", OComp6);
  (lit "nocont", ONocont);
  (lit "replace", OReplace);
  (lit "always", OAlways);
  (lit "repeated", ORepeated);
  (lit "repword", ORepword);
  (lit "rependword", ORependword);
  (lit "largesign", OLargesign);
  (lit "word", OWord);
  (lit "syllable", OSyllable);
  (lit "joinword", OJoinword);
  (lit "lowword", OLowword);
  (lit "contraction", OContraction);
  (lit "sufword", OSufword);
  (lit "prfword", OPrfword);
  (lit "begword", OBegword);
  (lit "begmidword", OBegmidword);
  (lit "midword", OMidword);
  (lit "midendword", OMidendword);
  (lit "endword", OEndword);
  (lit "partword", OPartword);
  (lit "exactdots", OExactdots);
  (lit "prepunc", OPrepunc);
  (lit "postpunc", OPostpunc);
  (lit "begnum", OBegnum);
  (lit "midnum", OMidnum);
  (lit "endnum", OEndnum);
  (lit "joinnum", OJoinnum);
  (lit "begcomp", OBegcomp);
  (lit "endcomp", OEndcomp);
  (lit "attribute", OAttribute);
  (lit "swapcd", OSwapcd);
  (lit "swapdd", OSwapdd);
  (lit "swapcc", OSwapcc);
  (lit "context", OContext);
  (lit "pass2", OPass2);
  (lit "pass3", OPass3);
  (lit "pass4", OPass4);
  (lit "correct", OCorrect);
  (lit "match", OMatch);
  (lit "literal", OLiteral)].
(** parser.rs:1304-1440 [opcode]. *)
Fixpoint lookup_opcode (s : str) (l : list (str * opcode)) : option opcode :=
  match l with
  | [] => None
  | (n, o) :: r => if str_eqb s n then Some o else lookup_opcode s r
  end.
Definition p_opcode : parser opcode :=
  rdo t <- p_token (EOpcode None);
  match lookup_opcode t opcode_table with Some o => p_return o | None => p_fail (EOpcode (Some t)) end.
(** parser.rs:1442-1453 [name]. *)
Definition is_ascii_alphanumeric (c : char) : bool := (is_ascii_alphabetic c || is_ascii_digit c)%bool.
Definition p_name : parser str :=
  rdo t <- p_token ENameExpected;
  if forallb is_ascii_alphanumeric t then p_return t else p_fail (EInvalidName t).
(** parser.rs:1455-1468 [many_names]: all tokens that are left, at least two. *)
Definition p_many_names : parser (list str) :=
  fun ts => if Nat.ltb 1 (length ts) then Parsed ts [] else Failed (ETokenExpected None).
(** parser.rs:1470-1481 [one_char]. *)
Definition p_one_char : parser char :=
  rdo t <- p_token (ESingleChar None);
  rdo s <- p_operand EEscape (unescape EscDefault) t;
  match s with [c] => p_return c | _ => p_fail (ESingleChar (Some s)) end.
(** [str::parse::<i32>]: an optional sign and digits, in range. *)
Definition parse_i32 (s : str) : option Z :=
  let digits l := match l with
    | [] => None
    | _ => if forallb is_ascii_digit l then Some (Z.of_N (fold_left (fun acc c => acc * 10 + (c - 48))%N l 0%N)) else None
    end in
  let range v := if ((-2147483648 <=? v) && (v <=? 2147483647))%Z%bool then Some v else None in
  match s with
  | [] => None
  | c :: r => if N.eqb c 43 then match digits r with Some v => range v | None => None end
              else if N.eqb c 45 then match digits r with Some v => range (- v)%Z | None => None end
              else match digits s with Some v => range v | None => None end
  end.
(** parser.rs:1483-1490 [number]. *)
Definition p_number : parser Z :=
  rdo t <- p_token ENumberExpected;
  match parse_i32 t with Some v => p_return v | None => p_fail EInvalidNumber end.
(** parser.rs:1492-1495 [chars]. *)
Definition p_chars : parser str :=
  rdo t <- p_token ECharsExpected; p_operand EEscape (unescape EscDefault) t.
(** parser.rs:1497-1499 [maybe_chars]: the token itself, no escapes. *)
Definition p_maybe_chars : parser (option str) :=
  fun ts => match ts with t :: r => Parsed (Some t) r | [] => Parsed None [] end.
(** parser.rs:1501-1506 [filename]. *)
Definition p_filename : parser str := p_token EFilenameExpected.
(** parser.rs:1508-1519 [position]. *)
Definition p_position : parser position :=
  fun ts => match ts with
  | t :: r => if str_eqb t (lit "before") then Parsed PosBefore r
              else if str_eqb t (lit "after") then Parsed PosAfter r
              else Failed (ETokenExpected (Some t))
  | [] => Failed (ETokenExpected None)
  end.
(** [BrailleChar::try_from], [BrailleChars::try_from] and the conversion to Unicode. *)
Definition p_cell (s : str) : parser char :=
  match cell_of_str s with
  | POk c => match to_unicode c with Ok u => p_return u | _ => p_fail (EInvalidBraille None) end
  | PInvalid c => p_fail (EInvalidBraille c)
  end.
Definition p_cells (s : str) : parser str :=
  match cells_of_str s with
  | POk cs => match cells_to_string cs with Ok t => p_return t | _ => p_fail (EInvalidBraille None) end
  | PInvalid c => p_fail (EInvalidBraille c)
  end.
(** [map(f).collect::<Result<_, _>>] *)
Fixpoint p_each {A B} (f : A -> parser B) (l : list A) : parser (list B) :=
  match l with
  | [] => p_return []
  | a :: r => rdo b <- f a; rdo bs <- p_each f r; p_return (b :: bs)
  end.
(** parser.rs:1521-1528 [dots]. *)
Definition p_dots : parser braille :=
  rdo t <- p_token EDotsExpected;
  if str_eqb t (lit "=") then p_return Implicit
  else rdo s <- p_cells t; p_return (Explicit s).
(** parser.rs:1530-1542 [explicit_dots]. *)
Definition p_explicit_dots : parser str := rdo t <- p_token EDotsExpected; p_cells t.
(** parser.rs:1544-1560 [many_braillechars]. *)
Definition p_many_cells : parser (list str) :=
  rdo t <- p_token EDotsExpected; p_each p_cells (split_on 44%N t).
(** parser.rs:1562-1569 [single_braillechar]. *)
Definition p_single_cell : parser char := rdo t <- p_token EDotsExpected; p_cell t.
(** parser.rs:1571-1585 [many_braillechar]. *)
Definition p_many_cell : parser str :=
  rdo t <- p_token EDotsExpected;
  p_each (fun s => if mem 45%N s then p_fail (ESingleCell s) else p_cell s) (split_on 44%N t).
(** parser.rs:1587-1607 [multipass_test], [multipass_action]. *)
Definition p_test_operand : parser (list test_instr) :=
  rdo t <- p_token ETestExpected; p_operand EMultipass parse_tests t.
Definition p_action_operand : parser (list action_instr) :=
  rdo t <- p_token EActionExpected; p_operand EMultipass parse_actions t.
(** parser.rs:1609-1635 [match_pre], [match_post]. *)
Definition p_match (sd : side) : parser (list pattern) :=
  rdo t <- p_token (match sd with SPre => EPreExpected | SPost => EPostExpected end);
  p_operand EMatchPattern (match_operand sd) t.

(** ** Rules *)
(** parser.rs:107-108 [ANY_DIRECTION]; parser.rs:66-85, 1185-1198
    [fail_if_invalid_constraints]. *)
Definition any_direction : constraints := mk_constraints true true false.
Definition is_subset (a b : constraints) : bool :=
  (implb (nofor a) (nofor b) && implb (noback a) (noback b) && implb (nocross a) (nocross b))%bool.
Definition difference (a b : constraints) : constraints :=
  mk_constraints (nofor a && negb (nofor b)) (noback a && negb (noback b)) (nocross a && negb (nocross b)).
Definition p_check (expected actual : constraints) (op : opcode) : parser unit :=
  if is_subset actual expected then p_return tt else p_fail (EConstraints (difference actual expected) op).
(** parser.rs:1200-1212 [fail_if_differing_number_of_replacements]. *)
Definition p_same_number (a b : nat) : parser unit :=
  if Nat.eqb a b then p_return tt else p_fail (ESwapNumbers a b).
(** parser.rs:1642-2377, the arms of [rule]. *)
Definition p_body (k : constraints) (w : list with_class) (op : opcode) : parser rule :=
  match op with
  | OInclude => rdo _ <- p_check no_constraints k op; rdo file <- p_filename; p_return (RInclude file)
  | OUndefined => rdo _ <- p_check no_constraints k op; rdo dots <- p_explicit_dots; p_return (RUndefined dots)
  | ODisplay => rdo _ <- p_check any_direction k op; rdo c <- p_one_char; rdo dots <- p_single_cell; p_return (RDisplay c dots k)
  | OMultind => rdo _ <- p_check any_direction k op; rdo dots <- p_explicit_dots; rdo names <- p_many_names; p_return (RMultind dots names k)
  | OSpace => rdo _ <- p_check any_direction k op; rdo c <- p_one_char; rdo dots <- p_explicit_dots; p_return (RSpace c dots k)
  | OPunctuation => rdo _ <- p_check any_direction k op; rdo c <- p_one_char; rdo dots <- p_explicit_dots; p_return (RPunctuation c dots k)
  | ODigit => rdo _ <- p_check any_direction k op; rdo c <- p_one_char; rdo dots <- p_explicit_dots; p_return (RDigit c dots k)
  | OGrouping => rdo _ <- p_check any_direction k op; rdo name <- p_name; rdo chars <- p_chars; rdo dots <- p_many_cell; match dots with [l; r] => p_return (RGrouping name chars l r) | _ => p_fail EDotsTuple end
  | OLetter => rdo _ <- p_check any_direction k op; rdo c <- p_one_char; rdo dots <- p_explicit_dots; p_return (RLetter c dots k)
  | OBase => rdo _ <- p_check no_constraints k op; rdo name <- p_name; rdo derived <- p_one_char; rdo base <- p_one_char; p_return (RBase name derived base)
  | OLowercase => rdo _ <- p_check any_direction k op; rdo c <- p_one_char; rdo dots <- p_explicit_dots; p_return (RLowercase c dots k)
  | OUppercase => rdo _ <- p_check any_direction k op; rdo c <- p_one_char; rdo dots <- p_explicit_dots; p_return (RUppercase c dots k)
  | OLitdigit => rdo _ <- p_check any_direction k op; rdo c <- p_one_char; rdo dots <- p_explicit_dots; p_return (RLitdigit c dots k)
  | OSign => rdo _ <- p_check any_direction k op; rdo c <- p_one_char; rdo dots <- p_explicit_dots; p_return (RSign c dots k)
  | OMath => rdo _ <- p_check any_direction k op; rdo c <- p_one_char; rdo dots <- p_explicit_dots; p_return (RMath c dots k)
  | OModeletter => rdo _ <- p_check any_direction k op; rdo name <- p_name; rdo dots <- p_explicit_dots; p_return (RModeletter name dots k)
  | OCapsletter => rdo _ <- p_check any_direction k op; rdo dots <- p_explicit_dots; p_return (RCapsletter dots k)
  | OBegmodeword => rdo _ <- p_check any_direction k op; rdo name <- p_name; rdo dots <- p_explicit_dots; p_return (RBegmodeword name dots k)
  | OBegcapsword => rdo _ <- p_check any_direction k op; rdo dots <- p_explicit_dots; p_return (RBegcapsword dots k)
  | OEndcapsword => rdo _ <- p_check any_direction k op; rdo dots <- p_explicit_dots; p_return (REndcapsword dots k)
  | OCapsmodechars => rdo _ <- p_check no_constraints k op; rdo chars <- p_chars; p_return (RCapsmodechars chars)
  | OBegcaps => rdo _ <- p_check no_constraints k op; rdo dots <- p_explicit_dots; p_return (RBegcaps dots)
  | OEndcaps => rdo _ <- p_check no_constraints k op; rdo dots <- p_explicit_dots; p_return (REndcaps dots)
  | OBegcapsphrase => rdo _ <- p_check no_constraints k op; rdo dots <- p_explicit_dots; p_return (RBegcapsphrase dots)
  | OEndcapsphrase => rdo _ <- p_check no_constraints k op; rdo pos <- p_position; rdo dots <- p_explicit_dots; p_return (REndcapsphrase dots pos)
  | OLencapsphrase => rdo _ <- p_check no_constraints k op; rdo number <- p_number; p_return (RLencapsphrase number)
  | OLetsign => rdo _ <- p_check no_constraints k op; rdo dots <- p_explicit_dots; p_return (RLetsign dots)
  | ONoletsign => rdo _ <- p_check no_constraints k op; rdo chars <- p_chars; p_return (RNoletsign chars)
  | ONoletsignbefore => rdo _ <- p_check no_constraints k op; rdo chars <- p_chars; p_return (RNoletsignbefore chars)
  | ONoletsignafter => rdo _ <- p_check no_constraints k op; rdo chars <- p_chars; p_return (RNoletsignafter chars)
  | ONocontractsign => rdo _ <- p_check any_direction k op; rdo dots <- p_explicit_dots; p_return (RNocontractsign dots k)
  | ONumsign => rdo _ <- p_check no_constraints k op; rdo dots <- p_explicit_dots; p_return (RNumsign dots)
  | ONonumsign => rdo _ <- p_check any_direction k op; rdo dots <- p_explicit_dots; p_return (RNonumsign dots k)
  | ONumericnocontchars => rdo _ <- p_check no_constraints k op; rdo chars <- p_chars; p_return (RNumericnocontchars chars)
  | ONumericmodechars => rdo _ <- p_check no_constraints k op; rdo chars <- p_chars; p_return (RNumericmodechars chars)
  | OMidendnumericmodechars => rdo _ <- p_check no_constraints k op; rdo chars <- p_chars; p_return (RMidendnumericmodechars chars)
  | OBegmodephrase => rdo _ <- p_check no_constraints k op; rdo name <- p_name; rdo dots <- p_explicit_dots; p_return (RBegmodephrase name dots)
  | OEndmodephrase => rdo _ <- p_check no_constraints k op; rdo name <- p_name; rdo pos <- p_position; rdo dots <- p_explicit_dots; p_return (REndmodephrase name dots pos)
  | OLenmodephrase => rdo _ <- p_check no_constraints k op; rdo name <- p_name; rdo number <- p_number; p_return (RLenmodephrase name number)
  | OSeqdelimiter => rdo _ <- p_check no_constraints k op; rdo chars <- p_chars; p_return (RSeqdelimiter chars)
  | OSeqbeforechars => rdo _ <- p_check no_constraints k op; rdo chars <- p_chars; p_return (RSeqbeforechars chars)
  | OSeqafterchars => rdo _ <- p_check no_constraints k op; rdo chars <- p_chars; p_return (RSeqafterchars chars)
  | OSeqafterpattern => rdo _ <- p_check no_constraints k op; rdo chars <- p_chars; p_return (RSeqafterpattern chars)
  | OSeqafterexpression => rdo _ <- p_check no_constraints k op; rdo chars <- p_chars; p_return (RSeqafterexpression chars)
  | OClass => rdo _ <- p_check no_constraints k op; rdo name <- p_name; rdo chars <- p_chars; p_return (RClass name chars)
  | OEmphclass => rdo _ <- p_check no_constraints k op; rdo name <- p_name; p_return (REmphclass name)
  | OBegemph => rdo _ <- p_check any_direction k op; rdo name <- p_name; rdo dots <- p_explicit_dots; p_return (RBegemph name dots k)
  | OEndemph => rdo _ <- p_check any_direction k op; rdo name <- p_name; rdo dots <- p_explicit_dots; p_return (REndemph name dots k)
  | ONoemphchars => rdo _ <- p_check no_constraints k op; rdo name <- p_name; rdo chars <- p_chars; p_return (RNoemphchars name chars)
  | OEmphletter => rdo _ <- p_check no_constraints k op; rdo name <- p_name; rdo dots <- p_explicit_dots; p_return (REmphletter name dots)
  | OBegemphword => rdo _ <- p_check no_constraints k op; rdo name <- p_name; rdo dots <- p_explicit_dots; p_return (RBegemphword name dots)
  | OEndemphword => rdo _ <- p_check no_constraints k op; rdo name <- p_name; rdo dots <- p_explicit_dots; p_return (REndemphword name dots)
  | OEmphmodechars => rdo _ <- p_check no_constraints k op; rdo name <- p_name; rdo chars <- p_chars; p_return (REmphmodechars name chars)
  | OBegemphphrase => rdo _ <- p_check no_constraints k op; rdo name <- p_name; rdo dots <- p_explicit_dots; p_return (RBegemphphrase name dots)
  | OEndemphphrase => rdo _ <- p_check no_constraints k op; rdo name <- p_name; rdo pos <- p_position; rdo dots <- p_explicit_dots; p_return (REndemphphrase name dots pos)
  | OLenemphphrase => rdo _ <- p_check no_constraints k op; rdo name <- p_name; rdo number <- p_number; p_return (RLenemphphrase name number)
  | OBegcomp => rdo _ <- p_check any_direction k op; rdo dots <- p_explicit_dots; p_return (RBegcomp dots k)
  | OEndcomp => rdo _ <- p_check any_direction k op; rdo dots <- p_explicit_dots; p_return (REndcomp dots k)
  | ODecpoint => rdo _ <- p_check no_constraints k op; rdo c <- p_one_char; rdo dots <- p_explicit_dots; p_return (RDecpoint c dots)
  | OHyphen => rdo _ <- p_check any_direction k op; rdo c <- p_one_char; rdo dots <- p_explicit_dots; p_return (RHyphen c dots k)
  | OCapsnocont => rdo _ <- p_check no_constraints k op; p_return RCapsnocont
  | OCompbrl => rdo _ <- p_check any_direction k op; rdo chars <- p_chars; p_return (RCompbrl chars k)
  | OComp6 => rdo _ <- p_check no_constraints k op; rdo chars <- p_chars; rdo dots <- p_dots; p_return (RComp6 chars dots)
  | ONocont => rdo _ <- p_check no_constraints k op; rdo chars <- p_chars; p_return (RNocont chars)
  | OReplace => rdo _ <- p_check no_constraints k op; rdo chars <- p_chars; rdo replacement <- p_maybe_chars; p_return (RReplace chars replacement)
  | OAlways => rdo chars <- p_chars; rdo dots <- p_dots; p_return (RAlways chars dots k w)
  | ORepeated => rdo _ <- p_check any_direction k op; rdo chars <- p_chars; rdo dots <- p_explicit_dots; p_return (RRepeated chars dots k)
  | ORepword => rdo _ <- p_check no_constraints k op; rdo chars <- p_chars; rdo dots <- p_explicit_dots; p_return (RRepword chars dots)
  | ORependword => rdo _ <- p_check no_constraints k op; rdo chars <- p_chars; rdo many_dots <- p_many_cells; match many_dots with [dots; other] => p_return (RRependword chars dots other) | _ => p_fail EDotsTuple end
  | OLargesign => rdo _ <- p_check no_constraints k op; rdo chars <- p_chars; rdo dots <- p_explicit_dots; p_return (RLargesign chars dots)
  | OWord => rdo _ <- p_check any_direction k op; rdo chars <- p_chars; rdo dots <- p_dots; p_return (RWord chars dots k w)
  | OSyllable => rdo _ <- p_check no_constraints k op; rdo chars <- p_chars; rdo dots <- p_dots; p_return (RSyllable chars dots)
  | OJoinword => rdo _ <- p_check no_constraints k op; rdo chars <- p_chars; rdo dots <- p_explicit_dots; p_return (RJoinword chars dots)
  | OLowword => rdo _ <- p_check any_direction k op; rdo chars <- p_chars; rdo dots <- p_explicit_dots; p_return (RLowword chars dots k)
  | OContraction => rdo _ <- p_check no_constraints k op; rdo chars <- p_chars; p_return (RContraction chars)
  | OSufword => rdo chars <- p_chars; rdo dots <- p_dots; p_return (RSufword chars dots k w)
  | OPrfword => rdo chars <- p_chars; rdo dots <- p_dots; p_return (RPrfword chars dots k w)
  | OBegword => rdo chars <- p_chars; rdo dots <- p_dots; p_return (RBegword chars dots k w)
  | OBegmidword => rdo chars <- p_chars; rdo dots <- p_dots; p_return (RBegmidword chars dots k w)
  | OMidword => rdo chars <- p_chars; rdo dots <- p_dots; p_return (RMidword chars dots k w)
  | OMidendword => rdo chars <- p_chars; rdo dots <- p_dots; p_return (RMidendword chars dots k w)
  | OEndword => rdo chars <- p_chars; rdo dots <- p_dots; p_return (REndword chars dots k w)
  | OPartword => rdo chars <- p_chars; rdo dots <- p_dots; p_return (RPartword chars dots k w)
  | OExactdots => rdo _ <- p_check no_constraints k op; rdo chars <- p_chars; p_return (RExactdots chars)
  | OPrepunc => rdo chars <- p_chars; rdo dots <- p_explicit_dots; p_return (RPrepunc chars dots k)
  | OPostpunc => rdo chars <- p_chars; rdo dots <- p_explicit_dots; p_return (RPostpunc chars dots k)
  | OBegnum => rdo chars <- p_chars; rdo dots <- p_explicit_dots; p_return (RBegnum chars dots k)
  | OMidnum => rdo chars <- p_chars; rdo dots <- p_explicit_dots; p_return (RMidnum chars dots k)
  | OEndnum => rdo chars <- p_chars; rdo dots <- p_dots; p_return (REndnum chars dots k)
  | OJoinnum => rdo chars <- p_chars; rdo dots <- p_explicit_dots; p_return (RJoinnum chars dots k)
  | OAttribute => rdo _ <- p_check no_constraints k op; rdo name <- p_name; rdo chars <- p_chars; p_return (RAttribute name chars)
  | OSwapcd => rdo _ <- p_check no_constraints k op; rdo name <- p_name; rdo chars <- p_chars; rdo dots <- p_many_cells; rdo _ <- p_same_number (length chars) (length dots); p_return (RSwapcd name chars dots)
  | OSwapdd => rdo _ <- p_check no_constraints k op; rdo name <- p_name; rdo dots <- p_many_cell; rdo replacement <- p_many_cells; rdo _ <- p_same_number (length dots) (length replacement); p_return (RSwapdd name dots replacement)
  | OSwapcc => rdo _ <- p_check no_constraints k op; rdo name <- p_name; rdo chars <- p_chars; rdo replacement <- p_chars; rdo _ <- p_same_number (length chars) (length replacement); p_return (RSwapcc name chars replacement)
  | OContext => rdo _ <- p_check any_direction k op; rdo test <- p_test_operand; rdo action <- p_action_operand; p_return (RContext test action k)
  | OPass2 => rdo _ <- p_check any_direction k op; rdo test <- p_test_operand; rdo action <- p_action_operand; p_return (RPass2 test action k)
  | OPass3 => rdo _ <- p_check any_direction k op; rdo test <- p_test_operand; rdo action <- p_action_operand; p_return (RPass3 test action k)
  | OPass4 => rdo _ <- p_check any_direction k op; rdo test <- p_test_operand; rdo action <- p_action_operand; p_return (RPass4 test action k)
  | OCorrect => rdo _ <- p_check any_direction k op; rdo test <- p_test_operand; rdo action <- p_action_operand; p_return (RCorrect test action k)
  | OMatch => rdo _ <- p_check any_direction k op; rdo pre <- p_match SPre; rdo chars <- p_chars; rdo post <- p_match SPost; rdo dots <- p_dots; p_return (RMatch pre chars post dots k)
  | OLiteral => rdo _ <- p_check no_constraints k op; rdo chars <- p_chars; p_return (RLiteral chars)
  end.
(** parser.rs:1637-2378 [rule]. *)
Definition p_rule : parser rule := fun ts =>
  let '(k, ts1) := p_constraints ts in
  let '(w, ts2) := p_with_classes ts1 in
  let ts3 := p_with_matches ts2 in
  rbind p_opcode (p_body k w) ts3.

(** ** Tables *)
(** [char::is_ascii_whitespace], [str::split_ascii_whitespace]. *)
Definition is_ascii_whitespace (c : char) : bool := mem c [9; 10; 12; 13; 32]%N.
Fixpoint words_of (sep : char -> bool) (cur : str) (s : str) : list str :=
  match s with
  | [] => match cur with [] => [] | _ => [rev cur] end
  | c :: r => if sep c then match cur with [] => words_of sep [] r | _ => rev cur :: words_of sep [] r end
              else words_of sep (c :: cur) r
  end.
Definition tokens (line : str) : list str := words_of is_ascii_whitespace [] line.
(** [str::lines]: the pieces between line feeds, without a last empty one, and without the
    carriage return before a line feed. *)
Definition strip_cr (l : str) : str :=
  match rev l with c :: r => if N.eqb c 13 then rev r else l | [] => [] end.
Fixpoint lines_of (cur : str) (s : str) : list str :=
  match s with
  | [] => match cur with [] => [] | _ => [rev cur] end
  | c :: r => if N.eqb c 10 then strip_cr (rev cur) :: lines_of [] r else lines_of (c :: cur) r
  end.
Definition lines (s : str) : list str := lines_of [] s.
(** [str::trim], by [char::is_whitespace]. *)
Fixpoint trim_start (ws : char -> bool) (s : str) : str :=
  match s with c :: r => if ws c then trim_start ws r else s | [] => [] end.
Definition trim (ws : char -> bool) (s : str) : str := rev (trim_start ws (rev (trim_start ws s))).
(** parser.rs:2462-2463: neither a comment nor empty *)
Definition is_rule_line (ws : char -> bool) (line : str) : bool :=
  match trim ws line with
  | [] => false
  | c :: _ => negb (N.eqb c 35)
  end.

(** A rule and its line (parser.rs:2408-2413 [AnchoredRule]; the path is that of the
    table), and an error and its line (parser.rs:2383-2388, [TableError::ParseError]). *)
Definition numbered (A : Type) : Type := (nat * A)%type.
(** parser.rs:2459-2480: the lines that are not comments or empty, with their results *)
Fixpoint line_results (ws : char -> bool) (n : nat) (ls : list str) : list (numbered (parse rule)) :=
  match ls with
  | [] => []
  | l :: r => (if is_rule_line ws l then [(n + 1, p_rule (tokens l))] else []) ++ line_results ws (S n) r
  end.
Fixpoint good_lines (l : list (numbered (parse rule))) : list (numbered rule) :=
  match l with
  | [] => []
  | (n, Parsed r _) :: t => (n, r) :: good_lines t
  | _ :: t => good_lines t
  end.
Fixpoint bad_lines (l : list (numbered (parse rule))) : list (numbered parse_error) :=
  match l with
  | [] => []
  | (n, Failed e) :: t => (n, e) :: bad_lines t
  | _ :: t => bad_lines t
  end.
(** parser.rs:2458-2487 [table]. *)
Definition parse_table (ws : char -> bool) (text : str) : list (numbered rule) + list (numbered parse_error) :=
  let results := line_results ws 0 (lines text) in
  match bad_lines results with
  | [] => inl (good_lines results)
  | errors => inr errors
  end.
