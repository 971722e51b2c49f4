(** Model of the data types of src/parser.rs and src/parser/{attribute,
    character_class,match_rule,multipass/test,multipass/action}.rs: rules,
    constraints, directions, precedence, character classes and the ASTs of the
    match and multipass operands.

    Simplifications.  A [BrailleChars] operand is represented by the string of
    its Unicode cells, i.e. by [dots.to_string()] (one character per cell;
    [BrailleModel.v] relates dot sets and cells).  A [HashSet] is a list.  The
    path and line of an [AnchoredRule] (parser.rs:2408-2413) are only printed
    and are dropped: an [AnchoredRule] is its [rule]. *)
From Coq Require Import Strings.String Strings.Ascii ZArith.
From Coq Require Import List.
From Verif Require Import Base.
Export Coq.Strings.String.StringSyntax.

(** String literals of the Rust source as lists of code points. *)
Fixpoint lit (s : String.string) : str :=
  match s with
  | String.EmptyString => []
  | String.String a r => Ascii.N_of_ascii a :: lit r
  end.

Arguments lit s%string.

(** parser.rs:116-122 [Direction]. *)
Inductive direction := Forward | Backward.

(** parser.rs:40-63 [Constraint], [Constraints] (an [EnumSet]). *)
Record constraints := mk_constraints { nofor : bool; noback : bool; nocross : bool }.
Definition no_constraints : constraints := mk_constraints false false false.

(** parser.rs:1024-1038, [Precedence]; the derived [PartialOrd] is the order of
    declaration. *)
Inductive precedence := PDefault | PIndicator | PTranslation.
Definition prec_rank (p : precedence) : nat :=
  match p with PDefault => 0 | PIndicator => 1 | PTranslation => 2 end.
Definition prec_gt (a b : precedence) : bool := Nat.ltb (prec_rank b) (prec_rank a).

(** character_class.rs:20-35 [CharacterClass]. *)
Inductive class :=
| CSpace | CDigit | CLitdigit | CLetter | CUppercase | CLowercase | CPunctuation
| CSign | CMath | CSeqdelimiter | CSeqbeforechars | CSeqafterchars
| CUser (name : str).

(** Derived [PartialEq] of [CharacterClass]. *)
Definition class_eqb (a b : class) : bool :=
  match a, b with
  | CSpace, CSpace | CDigit, CDigit | CLitdigit, CLitdigit | CLetter, CLetter
  | CUppercase, CUppercase | CLowercase, CLowercase | CPunctuation, CPunctuation
  | CSign, CSign | CMath, CMath | CSeqdelimiter, CSeqdelimiter
  | CSeqbeforechars, CSeqbeforechars | CSeqafterchars, CSeqafterchars => true
  | CUser x, CUser y => str_eqb x y
  | _, _ => false
  end.

(** character_class.rs:37-53 [CharacterClass::from(&str)]. *)
Definition class_from (s : str) : class :=
  if str_eqb s (lit "space") then CSpace
  else if str_eqb s (lit "digit") then CDigit
  else if str_eqb s (lit "letter") then CLetter
  else if str_eqb s (lit "uppercase") then CUppercase
  else if str_eqb s (lit "lowercase") then CLowercase
  else if str_eqb s (lit "punctuation") then CPunctuation
  else if str_eqb s (lit "sign") then CSign
  else if str_eqb s (lit "seqdelimiter") then CSeqdelimiter
  else if str_eqb s (lit "seqbeforechars") then CSeqbeforechars
  else if str_eqb s (lit "seqafterchars") then CSeqafterchars
  else CUser s.

(** attribute.rs:3-9 [Attribute]. *)
Inductive attribute := AClass (c : class) | AByOrder (n : N) | ABoundary | AAny.

(** parser.rs:1088-1092 [Braille]; [Explicit] carries the cells. *)
Inductive braille := Implicit | Explicit (cells : str).
(** parser.rs:1094-1101 [Display for Braille]. *)
Definition braille_to_string (b : braille) : str :=
  match b with Implicit => lit "=" | Explicit s => s end.

(** parser.rs:124-129 [WithClass]. *)
Inductive with_class := WBefore (cls : str) | WAfter (cls : str).

(** match_rule.rs:27-53 [Side], [Pattern], [Patterns]. *)
Inductive side := SPre | SPost.
Inductive pattern :=
| PEmpty
| PCharacters (s : str)
| PBoundary (s : side)
| PAny
| PSet (cs : list char)
| PAttributes (attrs : list attribute)
| PAttributesOrBoundary (attrs : list attribute) (s : side)
| PGroup (ps : list pattern)
| PNegate (p : pattern)
| POptional (p : pattern)
| PZeroOrMore (p : pattern)
| POneOrMore (p : pattern)
| PEither (l r : list pattern).

(** multipass/test.rs:64-115 [Operator], [Quantifier], [TestInstruction]. *)
Inductive operator := OpEq | OpGt | OpLt | OpGtEq | OpLtEq.
Inductive quantifier := QNumber (n : N) | QRange (m n : N) | QOneOrMore.
Inductive test_instr :=
| TLookback (len : N)
| TVariable (var : N) (op : operator) (operand : N)
| TString (s : str)
| TDots (cells : str)
| TAttributes (attrs : list attribute) (q : option quantifier)
| TClass (name : str) (q : option quantifier)
| TNegate (t : test_instr)
| TReplace (ts : list test_instr)
| TAtBeginning
| TAtEnd.

(** multipass/action.rs:57-68 [ActionInstruction]. *)
Inductive action_instr :=
| ActString (s : str)
| ActDots (cells : str)
| ActSwapClass (name : str)
| ActAssignment (var value : N)
| ActIncrement (var : N)
| ActDecrement (var : N)
| ActReplace
| ActIgnore.

(** parser.rs:1108-1112 [Position]. *)
Inductive position := PosBefore | PosAfter.

(** parser.rs:330-776 [Rule], one constructor per variant. *)
Inductive rule :=
| RInclude (file : str)
| RIncludeHyphenation (path : str)
| RUndefined (dots : str)
| RDisplay (c : char) (dots : char) (k : constraints)
| RMultind (dots : str) (names : list str) (k : constraints)
| RSpace (c : char) (dots : str) (k : constraints)
| RPunctuation (c : char) (dots : str) (k : constraints)
| RDigit (c : char) (dots : str) (k : constraints)
| RGrouping (name chars : str) (left right : char)
| RLetter (c : char) (dots : str) (k : constraints)
| RBase (name : str) (derived base : char)
| RLowercase (c : char) (dots : str) (k : constraints)
| RUppercase (c : char) (dots : str) (k : constraints)
| RLitdigit (c : char) (dots : str) (k : constraints)
| RSign (c : char) (dots : str) (k : constraints)
| RMath (c : char) (dots : str) (k : constraints)
| RModeletter (name dots : str) (k : constraints)
| RCapsletter (dots : str) (k : constraints)
| RBegmodeword (name dots : str) (k : constraints)
| RBegcapsword (dots : str) (k : constraints)
| REndcapsword (dots : str) (k : constraints)
| RCapsmodechars (chars : str)
| RBegcaps (dots : str)
| REndcaps (dots : str)
| RBegcapsphrase (dots : str)
| REndcapsphrase (dots : str) (pos : position)
| RLencapsphrase (number : Z)
| RLetsign (dots : str)
| RNoletsign (chars : str)
| RNoletsignbefore (chars : str)
| RNoletsignafter (chars : str)
| RNocontractsign (dots : str) (k : constraints)
| RNumsign (dots : str)
| RNonumsign (dots : str) (k : constraints)
| RNumericnocontchars (chars : str)
| RNumericmodechars (chars : str)
| RMidendnumericmodechars (chars : str)
| RBegmodephrase (name dots : str)
| REndmodephrase (name dots : str) (pos : position)
| RLenmodephrase (name : str) (number : Z)
| RSeqdelimiter (chars : str)
| RSeqbeforechars (chars : str)
| RSeqafterchars (chars : str)
| RSeqafterpattern (chars : str)
| RSeqafterexpression (chars : str)
| RClass (name chars : str)
| REmphclass (name : str)
| RBegemph (name dots : str) (k : constraints)
| REndemph (name dots : str) (k : constraints)
| RNoemphchars (name chars : str)
| REmphletter (name dots : str)
| RBegemphword (name dots : str)
| REndemphword (name dots : str)
| REmphmodechars (name chars : str)
| RBegemphphrase (name dots : str)
| REndemphphrase (name dots : str) (pos : position)
| RLenemphphrase (name : str) (number : Z)
| RBegcomp (dots : str) (k : constraints)
| REndcomp (dots : str) (k : constraints)
| RDecpoint (c : char) (dots : str)
| RHyphen (c : char) (dots : str) (k : constraints)
| RCapsnocont
| RCompbrl (chars : str) (k : constraints)
| RComp6 (chars : str) (dots : braille)
| RNocont (chars : str)
| RReplace (chars : str) (replacement : option str)
| RAlways (chars : str) (dots : braille) (k : constraints) (w : list with_class)
| RRepeated (chars dots : str) (k : constraints)
| RRepword (chars dots : str)
| RRependword (chars dots other : str)
| RLargesign (chars dots : str)
| RWord (chars : str) (dots : braille) (k : constraints) (w : list with_class)
| RSyllable (chars : str) (dots : braille)
| RJoinword (chars dots : str)
| RLowword (chars dots : str) (k : constraints)
| RContraction (chars : str)
| RSufword (chars : str) (dots : braille) (k : constraints) (w : list with_class)
| RPrfword (chars : str) (dots : braille) (k : constraints) (w : list with_class)
| RBegword (chars : str) (dots : braille) (k : constraints) (w : list with_class)
| RBegmidword (chars : str) (dots : braille) (k : constraints) (w : list with_class)
| RMidword (chars : str) (dots : braille) (k : constraints) (w : list with_class)
| RMidendword (chars : str) (dots : braille) (k : constraints) (w : list with_class)
| REndword (chars : str) (dots : braille) (k : constraints) (w : list with_class)
| RPartword (chars : str) (dots : braille) (k : constraints) (w : list with_class)
| RExactdots (chars : str)
| RPrepunc (chars dots : str) (k : constraints)
| RPostpunc (chars dots : str) (k : constraints)
| RBegnum (chars dots : str) (k : constraints)
| RMidnum (chars dots : str) (k : constraints)
| REndnum (chars : str) (dots : braille) (k : constraints)
| RJoinnum (chars dots : str) (k : constraints)
| RSwapcd (name chars : str) (dots : list str)
| RSwapdd (name dots : str) (replacement : list str)
| RSwapcc (name chars replacement : str)
| RAttribute (name chars : str)
| RContext (test : list test_instr) (action : list action_instr) (k : constraints)
| RPass2 (test : list test_instr) (action : list action_instr) (k : constraints)
| RPass3 (test : list test_instr) (action : list action_instr) (k : constraints)
| RPass4 (test : list test_instr) (action : list action_instr) (k : constraints)
| RCorrect (test : list test_instr) (action : list action_instr) (k : constraints)
| RMatch (pre : list pattern) (chars : str) (post : list pattern) (dots : braille)
         (k : constraints)
| RLiteral (chars : str).

(** The [constraints] field of a variant, if it has one (parser.rs:330-776). *)
Definition rule_constraints (r : rule) : option constraints :=
  match r with
  | RDisplay _ _ k | RMultind _ _ k | RSpace _ _ k | RPunctuation _ _ k | RDigit _ _ k
  | RLetter _ _ k | RLowercase _ _ k | RUppercase _ _ k | RLitdigit _ _ k | RSign _ _ k
  | RMath _ _ k | RModeletter _ _ k | RCapsletter _ k | RBegmodeword _ _ k
  | RBegcapsword _ k | REndcapsword _ k | RNocontractsign _ k | RNonumsign _ k
  | RBegemph _ _ k | REndemph _ _ k | RBegcomp _ k | REndcomp _ k | RHyphen _ _ k
  | RCompbrl _ k | RAlways _ _ k _ | RRepeated _ _ k | RWord _ _ k _ | RLowword _ _ k
  | RSufword _ _ k _ | RPrfword _ _ k _ | RBegword _ _ k _ | RBegmidword _ _ k _
  | RMidword _ _ k _ | RMidendword _ _ k _ | REndword _ _ k _ | RPartword _ _ k _
  | RPrepunc _ _ k | RPostpunc _ _ k | RBegnum _ _ k | RMidnum _ _ k | REndnum _ _ k
  | RJoinnum _ _ k | RContext _ _ k | RPass2 _ _ k | RPass3 _ _ k | RPass4 _ _ k
  | RCorrect _ _ k | RMatch _ _ _ _ k => Some k
  | _ => None
  end.

(** parser.rs:914-985 [HasDirection]: every variant with a constraints field is
    listed there; [Nofor] is tested first. *)
Definition is_direction (d : direction) (r : rule) : bool :=
  match rule_constraints r with
  | Some k =>
      if nofor k then match d with Backward => true | Forward => false end
      else if noback k then match d with Forward => true | Backward => false end
      else true
  | None => true
  end.

(** parser.rs:987-1022 [HasNocross]. *)
Definition is_nocross (r : rule) : bool :=
  match r with
  | RAlways _ _ k _ | RWord _ _ k _ | RLowword _ _ k
  | RSufword _ _ k _ | RPrfword _ _ k _ | RBegword _ _ k _ | RBegmidword _ _ k _
  | RMidword _ _ k _ | RMidendword _ _ k _ | REndword _ _ k _ | RPartword _ _ k _
  | RPrepunc _ _ k | RPostpunc _ _ k | RBegnum _ _ k | RMidnum _ _ k | REndnum _ _ k
  | RJoinnum _ _ k => nocross k
  | _ => false
  end.

(** parser.rs:1040-1077 [HasPrecedence]. *)
Definition rule_precedence (r : rule) : precedence :=
  match r with
  | RWord _ _ _ _ | RBegword _ _ _ _ | RSufword _ _ _ _ | RMidword _ _ _ _
  | RMidendword _ _ _ _ | REndword _ _ _ _ | RBegmidword _ _ _ _ | RJoinword _ _
  | RBegnum _ _ _ | RMidnum _ _ _ | REndnum _ _ _ | RAlways _ _ _ _ => PTranslation
  | RCapsletter _ _ | RBegcapsword _ _ | REndcapsword _ _ | RNumsign _ | RNonumsign _ _ =>
      PIndicator
  | _ => PDefault
  end.
