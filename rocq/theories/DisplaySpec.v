(** What the trace command shows, and which rules it can show. *)
From Coq Require Import Strings.String.
From Coq Require Import List.
From Verif Require Import Base RuleModel TranslationModel BrailleProofs UnescapeSpec OperandSpec LineSpec.
Local Open Scope list_scope.

(** the opcodes of rules that have a text form *)
Definition printable : list str := [
    lit "undefined"; lit "space"; lit "punctuation"; lit "digit"; lit "letter"; lit "base"; lit "lowercase";
    lit "uppercase"; lit "litdigit"; lit "sign"; lit "math"; lit "letsign"; lit "noletsign"; lit "nocontractsign";
    lit "numsign"; lit "nonumsign"; lit "compbrl"; lit "comp6"; lit "always"; lit "largesign"; lit "word";
    lit "contraction"; lit "begword"; lit "begmidword"; lit "midword"; lit "midendword"; lit "endword";
    lit "partword"; lit "begnum"; lit "midnum"; lit "endnum"; lit "capsletter"; lit "begcapsword";
    lit "endcapsword"; lit "begcaps"; lit "endcaps"; lit "correct"; lit "sufword"; lit "prfword"; lit "context";
    lit "pass2"; lit "pass3"; lit "pass4"; lit "attribute"; lit "literal"; lit "prepunc"; lit "postpunc";
    lit "decpoint"; lit "hyphen"; lit "match"].

(** ** Operands *)
(** tests with nothing inside that are neither texts nor dots *)
Definition simple (t : test_instr) : Prop :=
  match t with TString _ | TDots _ | TNegate _ | TReplace _ => False | _ => True end.
(** A test is shown in a way it can be written, but a text without escapes and dots as cells. *)
Inductive test_shown : test_instr -> str -> Prop :=
| sh_string s : test_shown (TString s) (lit """" ++ s ++ lit """")
| sh_dots cells : test_shown (TDots cells) (lit "@" ++ cells)
| sh_simple t s : simple t -> test_text s t [] -> test_shown t s
| sh_not t s : test_shown t s -> test_shown (TNegate t) (lit "!" ++ s)
| sh_replace l s : tests_shown l s -> test_shown (TReplace l) (lit "[" ++ s ++ lit "]")
with tests_shown : list test_instr -> str -> Prop :=
| sh_none : tests_shown [] []
| sh_more t s l s' : test_shown t s -> tests_shown l s' -> tests_shown (t :: l) (s ++ s').
(** texts and cells of an action are shown as they are *)
Inductive action_shown : action_instr -> str -> Prop :=
| ac_string s : action_shown (ActString s) s
| ac_dots cells : action_shown (ActDots cells) cells
| ac_other a s : (forall t, a <> ActString t) -> (forall t, a <> ActDots t) -> action_text s a [] -> action_shown a s.

(** no dots, no text that needs an escape *)
Inductive plain_test : test_instr -> Prop :=
| pl_string s : ~ In (ch """") s -> ~ In (ch "\") s -> plain_test (TString s)
| pl_simple t : simple t -> plain_test t
| pl_not t : plain_test t -> plain_test (TNegate t)
| pl_replace l : Forall plain_test l -> plain_test (TReplace l).
(** no classes of characters, no set that needs an escape *)
Inductive plain_pattern : pattern -> Prop :=
| pp_empty : plain_pattern PEmpty
| pp_characters s : plain_pattern (PCharacters s)
| pp_boundary sd : plain_pattern (PBoundary sd)
| pp_any : plain_pattern PAny
| pp_set cs : ~ In (ch "]") cs -> ~ In (ch "\") cs -> plain_pattern (PSet cs)
| pp_group l : Forall plain_pattern l -> plain_pattern (PGroup l)
| pp_not p : plain_pattern p -> plain_pattern (PNegate p)
| pp_optional p : plain_pattern p -> plain_pattern (POptional p)
| pp_many p : plain_pattern p -> plain_pattern (PZeroOrMore p)
| pp_more p : plain_pattern p -> plain_pattern (POneOrMore p)
| pp_either l l' : Forall plain_pattern l -> Forall plain_pattern l' -> plain_pattern (PEither l l').

Definition item_shown (i : item) (s : str) : Prop :=
  match i with
  | Char c => s = [c]
  | Text t | Name t | Cells t => s = t
  | Dots Implicit => s = lit "="
  | Dots (Explicit cells) => s = cells
  | Tests l => tests_shown l s
  | Actions l => exists ws, s = concat ws /\ Forall2 action_shown l ws
  | LineSpec.Pre l => Forall plain_pattern l -> operand_text SPre s l
  | Post l => Forall plain_pattern l -> operand_text SPost s l
  | _ => False
  end.

(** ** Rules *)
(** [r] is shown as its opcode and operands, without the words in front of the opcode *)
Definition rule_shown (r : rule) (s : str) : Prop :=
  exists name items words, spelling r = Some (name, items) /\ In name printable /\
    Forall2 item_shown items words /\ s = joins (ch " ") (name :: words).
Definition printable_rule (r : rule) : Prop :=
  exists name items, spelling r = Some (name, items) /\ In name printable.

(** ** Rows *)
Definition stage_shown (st : stage) : str :=
  match st with
  | TranslationModel.Pre => lit "Pre" | Main => lit "Main" | Post1 => lit "Pass2" | Post2 => lit "Pass3" | Post3 => lit "Pass4"
  end.
(** the text a rule is shown as, nothing for a piece without a rule *)
Definition origin_shown (o : option rule) (s : str) : Prop :=
  match o with None => s = [] | Some r => rule_shown r s end.
