(** Model of the text forms of rules ([Display], src/parser.rs, parser/match_rule.rs and
    parser/multipass/{test,action}.rs) and of the [trace] command of src/main.rs. *)
From Coq Require Import Strings.String.
From Coq Require Import List.
From Verif Require Import Base RuleModel TranslationModel PipelineModel.

(** Decimal digits of a number ([Display] of the unsigned integers of the standard library). *)
Fixpoint digits_of (fuel : nat) (n : N) : str :=
  match fuel with
  | 0 => []
  | S f => if N.ltb n 10 then [48 + n]%N else digits_of f (n / 10) ++ [48 + n mod 10]%N
  end.
Definition show_number (n : N) : str := digits_of (S (N.size_nat n)) n.

(** multipass/test.rs:487-516 [Display for Attribute]; [todo!()] panics. *)
Definition show_attribute (a : attribute) : res str :=
  match a with
  | AClass c =>
      Ok (match c with
          | CSpace => lit "s" | CDigit => lit "d" | CLitdigit => lit "D" | CLetter => lit "l"
          | CUppercase => lit "U" | CLowercase => lit "u" | CPunctuation => lit "p" | CSign => lit "S"
          | CMath => lit "m" | CSeqdelimiter => lit "~" | CSeqbeforechars => lit "<"
          | CSeqafterchars => lit ">" | CUser name => name
          end)
  | AByOrder n =>
      if N.eqb n 1 then Ok (lit "w") else if N.eqb n 2 then Ok (lit "x")
      else if N.eqb n 3 then Ok (lit "y") else if N.eqb n 4 then Ok (lit "z") else Panic
  | AAny => Ok (lit "a")
  | ABoundary => Ok (lit "^")
  end.
(** One after the other ([for x in l { write!(f, "{}", x)? }]). *)
Fixpoint show_each {A} (show : A -> res str) (l : list A) : res str :=
  match l with
  | [] => Ok []
  | a :: r => do s <- show a; do t <- show_each show r; Ok (s ++ t)
  end.

(** multipass/test.rs:518-529 [Display for Operator]. *)
Definition show_operator (o : operator) : str :=
  match o with
  | OpEq => lit "=" | OpGt => lit ">" | OpLt => lit "<" | OpGtEq => lit ">=" | OpLtEq => lit "<="
  end.
(** multipass/test.rs:531-539 [Display for Quantifier], and the [if let] of 559 and 568. *)
Definition show_quantifier (q : option quantifier) : str :=
  match q with
  | None => []
  | Some (QNumber n) => show_number n
  | Some (QRange m n) => show_number m ++ lit "-" ++ show_number n
  | Some QOneOrMore => lit "."
  end.
(** multipass/test.rs:541-593 [Display for TestInstruction].  The attributes are a
    [HashSet]: the list is in its iteration order. *)
Fixpoint show_test (t : test_instr) : res str :=
  match t with
  | TLookback n => Ok (lit "_" ++ show_number n)
  | TVariable v o n => Ok (lit "#" ++ show_number v ++ show_operator o ++ show_number n)
  | TString s => Ok (lit """" ++ s ++ lit """")
  | TDots cells => Ok (lit "@" ++ cells)
  | TAttributes attrs q => do s <- show_each show_attribute attrs; Ok (lit "$" ++ s ++ show_quantifier q)
  | TClass name q => Ok (lit "%" ++ name ++ show_quantifier q)
  | TNegate t => do s <- show_test t; Ok (lit "!" ++ s)
  | TReplace ts =>
      do s <- (fix go (l : list test_instr) : res str :=
                 match l with
                 | [] => Ok []
                 | t :: r => do s <- show_test t; do u <- go r; Ok (s ++ u)
                 end) ts;
      Ok (lit "[" ++ s ++ lit "]")
  | TAtBeginning => Ok (lit "`")
  | TAtEnd => Ok (lit "~")
  end.
(** multipass/test.rs:478-485 [Display for Test]. *)
Definition show_tests (l : list test_instr) : res str := show_each show_test l.

(** multipass/action.rs:323-337 [Display for ActionInstruction]. *)
Definition show_action (a : action_instr) : str :=
  match a with
  | ActString s => s
  | ActDots cells => cells
  | ActReplace => lit "*"
  | ActIgnore => lit "?"
  | ActSwapClass name => lit "%" ++ name
  | ActAssignment v n => lit "#" ++ show_number v ++ lit "=" ++ show_number n
  | ActIncrement v => lit "#" ++ show_number v ++ lit "+"
  | ActDecrement v => lit "#" ++ show_number v ++ lit "-"
  end.
(** multipass/action.rs:314-321 [Display for Action]. *)
Definition show_actions (l : list action_instr) : str := flat_map show_action l.

(** match_rule.rs:80-118 [Display for Pattern]. *)
Fixpoint show_pattern (p : pattern) : res str :=
  let show_all := fix go (l : list pattern) : res str :=
    match l with
    | [] => Ok []
    | p :: r => do s <- show_pattern p; do u <- go r; Ok (s ++ u)
    end in
  match p with
  | PEmpty => Ok (lit "-")
  | PCharacters s => Ok s
  | PBoundary SPre => Ok (lit "^")
  | PBoundary SPost => Ok (lit "$")
  | PAny => Ok (lit ".")
  | PSet cs => Ok (lit "[" ++ cs ++ lit "]")
  | PAttributes attrs => show_each show_attribute attrs
  | PAttributesOrBoundary attrs sd =>
      do s <- show_each show_attribute attrs; Ok (s ++ match sd with SPre => lit "^" | SPost => lit "$" end)
  | PGroup ps => do s <- show_all ps; Ok (lit "(" ++ s ++ lit ")")
  | PNegate p => do s <- show_pattern p; Ok (lit "!" ++ s)
  | POptional p => do s <- show_pattern p; Ok (s ++ lit "?")
  | PZeroOrMore p => do s <- show_pattern p; Ok (s ++ lit "*")
  | POneOrMore p => do s <- show_pattern p; Ok (s ++ lit "+")
  | PEither l r => do s <- show_all l; do t <- show_all r; Ok (s ++ lit "|" ++ t)
  end.
(** match_rule.rs:71-78 [Display for Patterns]. *)
Definition show_patterns (l : list pattern) : res str := show_each show_pattern l.

(** [write!(f, "opcode {} {}", a, b)]. *)
Definition words1 (name a : str) : res str := Ok (name ++ lit " " ++ a).
Definition words2 (name a b : str) : res str := Ok (name ++ lit " " ++ a ++ lit " " ++ b).
Definition multipass_words (name : str) (test : list test_instr) (action : list action_instr) : res str :=
  do t <- show_tests test; words2 name t (show_actions action).
Definition sb := braille_to_string.

(** parser.rs:797-912 [Display for Rule]; every variant that is not listed is [todo!()]. *)
Definition show_rule (r : rule) : res str :=
  match r with
  | RUndefined dots => words1 (lit "undefined") dots
  | RSpace c dots _ => words2 (lit "space") [c] dots
  | RPunctuation c dots _ => words2 (lit "punctuation") [c] dots
  | RDigit c dots _ => words2 (lit "digit") [c] dots
  | RLetter c dots _ => words2 (lit "letter") [c] dots
  | RBase name derived base => Ok (lit "base " ++ name ++ lit " " ++ [derived] ++ lit " " ++ [base])
  | RLowercase c dots _ => words2 (lit "lowercase") [c] dots
  | RUppercase c dots _ => words2 (lit "uppercase") [c] dots
  | RLitdigit c dots _ => words2 (lit "litdigit") [c] dots
  | RSign c dots _ => words2 (lit "sign") [c] dots
  | RMath c dots _ => words2 (lit "math") [c] dots
  | RLetsign dots => words1 (lit "letsign") dots
  | RNoletsign chars => words1 (lit "noletsign") chars
  | RNocontractsign dots _ => words1 (lit "nocontractsign") dots
  | RNumsign dots => words1 (lit "numsign") dots
  | RNonumsign dots _ => words1 (lit "nonumsign") dots
  | RCompbrl chars _ => words1 (lit "compbrl") chars
  | RComp6 chars dots => words2 (lit "comp6") chars (sb dots)
  | RAlways chars dots _ _ => words2 (lit "always") chars (sb dots)
  | RLargesign chars dots => words2 (lit "largesign") chars dots
  | RWord chars dots _ _ => words2 (lit "word") chars (sb dots)
  | RContraction chars => words1 (lit "contraction") chars
  | RBegword chars dots _ _ => words2 (lit "begword") chars (sb dots)
  | RBegmidword chars dots _ _ => words2 (lit "begmidword") chars (sb dots)
  | RMidword chars dots _ _ => words2 (lit "midword") chars (sb dots)
  | RMidendword chars dots _ _ => words2 (lit "midendword") chars (sb dots)
  | REndword chars dots _ _ => words2 (lit "endword") chars (sb dots)
  | RPartword chars dots _ _ => words2 (lit "partword") chars (sb dots)
  | RBegnum chars dots _ => words2 (lit "begnum") chars dots
  | RMidnum chars dots _ => words2 (lit "midnum") chars dots
  | REndnum chars dots _ => words2 (lit "endnum") chars (sb dots)
  | RCapsletter dots _ => words1 (lit "capsletter") dots
  | RBegcapsword dots _ => words1 (lit "begcapsword") dots
  | REndcapsword dots _ => words1 (lit "endcapsword") dots
  | RBegcaps dots => words1 (lit "begcaps") dots
  | REndcaps dots => words1 (lit "endcaps") dots
  | RCorrect test action _ => multipass_words (lit "correct") test action
  | RSufword chars dots _ _ => words2 (lit "sufword") chars (sb dots)
  | RPrfword chars dots _ _ => words2 (lit "prfword") chars (sb dots)
  | RContext test action _ => multipass_words (lit "context") test action
  | RPass2 test action _ => multipass_words (lit "pass2") test action
  | RPass3 test action _ => multipass_words (lit "pass3") test action
  | RPass4 test action _ => multipass_words (lit "pass4") test action
  | RAttribute name chars => words2 (lit "attribute") name chars
  | RLiteral chars => words1 (lit "literal") chars
  | RPrepunc chars dots _ => words2 (lit "prepunc") chars dots
  | RPostpunc chars dots _ => words2 (lit "postpunc") chars dots
  | RDecpoint c dots => words2 (lit "decpoint") [c] dots
  | RHyphen c dots _ => words2 (lit "hyphen") [c] dots
  | RMatch pre chars post dots _ =>
      do s <- show_patterns pre; do t <- show_patterns post;
      Ok (lit "match " ++ s ++ lit " " ++ chars ++ lit " " ++ t ++ lit " " ++ sb dots)
  | _ => Panic
  end.

(** ** main.rs *)
(** translation.rs:26-36 [Display for TranslationStage]. *)
Definition show_stage (s : stage) : str :=
  match s with
  | Pre => lit "Pre" | Main => lit "Main" | Post1 => lit "Pass2" | Post2 => lit "Pass3" | Post3 => lit "Pass4"
  end.
(** main.rs:131-140 [Trace], as the texts of the five columns. *)
Record row := mk_row { row_number : str; row_from : str; row_to : str; row_rule : str; row_stage : str }.
(** main.rs:142-151 [display_origin]. *)
Definition display_origin (o : origin) : res str :=
  match o with Some r => show_rule r | None => Ok [] end.
(** main.rs:155-160, the [filter] of [print_trace]. *)
Definition is_shown (t : resolved) : bool :=
  match r_stage t with Main => true | _ => match r_origin t with Some _ => true | None => false end end.
(** main.rs:153-184 [print_trace]: the rows of the table, numbered from [n] + 1.  The layout
    of the crate tabled and its two styles are not modelled. *)
Fixpoint rows_from (n : nat) (l : list resolved) : res (list row) :=
  match l with
  | [] => Ok []
  | t :: rest =>
      do s <- display_origin (r_origin t);
      do rows <- rows_from (S n) rest;
      Ok (mk_row (show_number (N.of_nat (S n))) (r_input t) (r_output t) s (show_stage (r_stage t)) :: rows)
  end.
Definition print_trace (all : list (list resolved)) : res (list row) :=
  rows_from 0 (filter is_shown (concat all)).

(** main.rs:186-202 [trace], once the table is compiled: the translation and the rows. *)
Definition trace_command (lower upper : char -> list char) (long_sort : list IndicatorModel.event -> res (list IndicatorModel.event))
           (t : list transformation) (input : str) : res (str * list row) :=
  do out <- pipeline_translate lower upper long_sort t input;
  do all <- pipeline_trace lower upper long_sort t input;
  do rows <- print_trace all;
  Ok (out, rows).
