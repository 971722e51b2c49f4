(** How the rules of a table are written: marks, opcode and operands. *)
From Coq Require Import Strings.String ZArith.
From Coq Require Import List.
From Verif Require Import Base RuleModel BrailleModel BrailleProofs UnescapeSpec OperandSpec.

(** ** Operands *)
Inductive item :=
| Char (c : char)               (** one character *)
| Text (s : str)                (** characters *)
| Name (s : str)                (** letters and digits *)
| Names (l : list str)          (** all words that are left, two at least *)
| File (s : str)
| Maybe (s : option str)        (** a word, or nothing at the end of the line *)
| Number (z : Z)
| Place (p : position)          (** before or after *)
| Cells (s : str)               (** cells joined by hyphens *)
| Cell (c : char)
| Dots (b : braille)            (** cells joined by hyphens, or = *)
| CellList (s : str)            (** cells separated by commas *)
| CellsList (l : list str)      (** the same with several cells at each place *)
| Tests (l : list test_instr) | Actions (l : list action_instr)
| Pre (l : list pattern) | Post (l : list pattern).

Definition alphanumeric (c : char) : Prop :=
  (48 <= c /\ c <= 57 \/ 65 <= c /\ c <= 90 \/ 97 <= c /\ c <= 122)%N.
Definition spells_number (t : str) (z : Z) : Prop :=
  (-2147483648 <= z <= 2147483647)%Z /\
  exists n, (decimal t n /\ z = Z.of_N n) \/ (exists t', t = 43%N :: t' /\ decimal t' n /\ z = Z.of_N n) \/
            (exists t', t = 45%N :: t' /\ decimal t' n /\ z = (- Z.of_N n)%Z).
(** [reads i ts rest]: the operand [i] is written at the beginning of the words [ts], [rest]
    is what follows. *)
Inductive reads : item -> list str -> list str -> Prop :=
| rd_char c t rest : Escaped false true t [c] -> reads (Char c) (t :: rest) rest
| rd_text s t rest : Escaped false true t s -> reads (Text s) (t :: rest) rest
| rd_name t rest : Forall alphanumeric t -> reads (Name t) (t :: rest) rest
| rd_names l : 2 <= length l -> reads (Names l) l []
| rd_file t rest : reads (File t) (t :: rest) rest
| rd_maybe t rest : reads (Maybe (Some t)) (t :: rest) rest
| rd_nothing : reads (Maybe None) [] []
| rd_number z t rest : spells_number t z -> reads (Number z) (t :: rest) rest
| rd_before rest : reads (Place PosBefore) (lit "before" :: rest) rest
| rd_after rest : reads (Place PosAfter) (lit "after" :: rest) rest
| rd_cells us t rest : spells_cells t us -> reads (Cells us) (t :: rest) rest
| rd_cell u t rest : spells_cell t u -> reads (Cell u) (t :: rest) rest
| rd_dots us t rest : spells_cells t us -> reads (Dots (Explicit us)) (t :: rest) rest
| rd_same rest : reads (Dots Implicit) (lit "=" :: rest) rest
| rd_cell_list us parts rest : parts <> [] -> Forall2 spells_cell parts us -> reads (CellList us) (joins 44%N parts :: rest) rest
| rd_cells_list uss parts rest : parts <> [] -> Forall2 spells_cells parts uss -> reads (CellsList uss) (joins 44%N parts :: rest) rest
| rd_tests l t rest : l <> [] -> tests_text t l [] -> reads (Tests l) (t :: rest) rest
| rd_actions l t rest : l <> [] -> actions_text t l [] -> reads (Actions l) (t :: rest) rest
| rd_pre l t s rest : Escaped true true t s -> operand_text SPre s l -> reads (Pre l) (t :: rest) rest
| rd_post l t s rest : Escaped true true t s -> operand_text SPost s l -> reads (Post l) (t :: rest) rest.
Inductive reads_all : list item -> list str -> list str -> Prop :=
| ra_nil rest : reads_all [] rest rest
| ra_cons i l ts mid rest : reads i ts mid -> reads_all l mid rest -> reads_all (i :: l) ts rest.

(** ** Rules *)
(** the opcode and the operands of a rule *)
Definition spelling (r : rule) : option (str * list item) :=
  match r with
  | RIncludeHyphenation _ => None
  | RInclude file => Some (lit "include", [File file])
  | RUndefined dots => Some (lit "undefined", [Cells dots])
  | RDisplay c dots _ => Some (lit "display", [Char c; Cell dots])
  | RMultind dots names _ => Some (lit "multind", [Cells dots; Names names])
  | RSpace c dots _ => Some (lit "space", [Char c; Cells dots])
  | RPunctuation c dots _ => Some (lit "punctuation", [Char c; Cells dots])
  | RDigit c dots _ => Some (lit "digit", [Char c; Cells dots])
  | RGrouping name chars l r => Some (lit "grouping", [Name name; Text chars; CellList [l; r]])
  | RLetter c dots _ => Some (lit "letter", [Char c; Cells dots])
  | RBase name derived base => Some (lit "base", [Name name; Char derived; Char base])
  | RLowercase c dots _ => Some (lit "lowercase", [Char c; Cells dots])
  | RUppercase c dots _ => Some (lit "uppercase", [Char c; Cells dots])
  | RLitdigit c dots _ => Some (lit "litdigit", [Char c; Cells dots])
  | RSign c dots _ => Some (lit "sign", [Char c; Cells dots])
  | RMath c dots _ => Some (lit "math", [Char c; Cells dots])
  | RModeletter name dots _ => Some (lit "modeletter", [Name name; Cells dots])
  | RCapsletter dots _ => Some (lit "capsletter", [Cells dots])
  | RBegmodeword name dots _ => Some (lit "begmodeword", [Name name; Cells dots])
  | RBegcapsword dots _ => Some (lit "begcapsword", [Cells dots])
  | REndcapsword dots _ => Some (lit "endcapsword", [Cells dots])
  | RCapsmodechars chars => Some (lit "capsmodechars", [Text chars])
  | RBegcaps dots => Some (lit "begcaps", [Cells dots])
  | REndcaps dots => Some (lit "endcaps", [Cells dots])
  | RBegcapsphrase dots => Some (lit "begcapsphrase", [Cells dots])
  | REndcapsphrase dots pos => Some (lit "endcapsphrase", [Place pos; Cells dots])
  | RLencapsphrase number => Some (lit "lencapsphrase", [Number number])
  | RLetsign dots => Some (lit "letsign", [Cells dots])
  | RNoletsign chars => Some (lit "noletsign", [Text chars])
  | RNoletsignbefore chars => Some (lit "noletsignbefore", [Text chars])
  | RNoletsignafter chars => Some (lit "noletsignafter", [Text chars])
  | RNocontractsign dots _ => Some (lit "nocontractsign", [Cells dots])
  | RNumsign dots => Some (lit "numsign", [Cells dots])
  | RNonumsign dots _ => Some (lit "nonumsign", [Cells dots])
  | RNumericnocontchars chars => Some (lit "numericnocontchars", [Text chars])
  | RNumericmodechars chars => Some (lit "numericmodechars", [Text chars])
  | RMidendnumericmodechars chars => Some (lit "midendnumericmodechars", [Text chars])
  | RBegmodephrase name dots => Some (lit "begmodephrase", [Name name; Cells dots])
  | REndmodephrase name dots pos => Some (lit "endmodephrase", [Name name; Place pos; Cells dots])
  | RLenmodephrase name number => Some (lit "lenmodephrase", [Name name; Number number])
  | RSeqdelimiter chars => Some (lit "seqdelimiter", [Text chars])
  | RSeqbeforechars chars => Some (lit "seqbeforechars", [Text chars])
  | RSeqafterchars chars => Some (lit "seqafterchars", [Text chars])
  | RSeqafterpattern chars => Some (lit "seqafterpattern", [Text chars])
  | RSeqafterexpression chars => Some (lit "seqafterexpression", [Text chars])
  | RClass name chars => Some (lit "class", [Name name; Text chars])
  | REmphclass name => Some (lit "emphclass", [Name name])
  | RBegemph name dots _ => Some (lit "begemph", [Name name; Cells dots])
  | REndemph name dots _ => Some (lit "endemph", [Name name; Cells dots])
  | RNoemphchars name chars => Some (lit "noemphchars", [Name name; Text chars])
  | REmphletter name dots => Some (lit "emphletter", [Name name; Cells dots])
  | RBegemphword name dots => Some (lit "begemphword", [Name name; Cells dots])
  | REndemphword name dots => Some (lit "endemphword", [Name name; Cells dots])
  | REmphmodechars name chars => Some (lit "emphmodechars", [Name name; Text chars])
  | RBegemphphrase name dots => Some (lit "begemphphrase", [Name name; Cells dots])
  | REndemphphrase name dots pos => Some (lit "endemphphrase", [Name name; Place pos; Cells dots])
  | RLenemphphrase name number => Some (lit "lenemphphrase", [Name name; Number number])
  | RBegcomp dots _ => Some (lit "begcomp", [Cells dots])
  | REndcomp dots _ => Some (lit "endcomp", [Cells dots])
  | RDecpoint c dots => Some (lit "decpoint", [Char c; Cells dots])
  | RHyphen c dots _ => Some (lit "hyphen", [Char c; Cells dots])
  | RCapsnocont => Some (lit "capsnocont", [])
  | RCompbrl chars _ => Some (lit "compbrl", [Text chars])
  | RComp6 chars dots => Some (lit "comp6", [Text chars; Dots dots])
  | RNocont chars => Some (lit "nocont", [Text chars])
  | RReplace chars replacement => Some (lit "replace", [Text chars; Maybe replacement])
  | RAlways chars dots _ _ => Some (lit "always", [Text chars; Dots dots])
  | RRepeated chars dots _ => Some (lit "repeated", [Text chars; Cells dots])
  | RRepword chars dots => Some (lit "repword", [Text chars; Cells dots])
  | RRependword chars dots other => Some (lit "rependword", [Text chars; CellsList [dots; other]])
  | RLargesign chars dots => Some (lit "largesign", [Text chars; Cells dots])
  | RWord chars dots _ _ => Some (lit "word", [Text chars; Dots dots])
  | RSyllable chars dots => Some (lit "syllable", [Text chars; Dots dots])
  | RJoinword chars dots => Some (lit "joinword", [Text chars; Cells dots])
  | RLowword chars dots _ => Some (lit "lowword", [Text chars; Cells dots])
  | RContraction chars => Some (lit "contraction", [Text chars])
  | RSufword chars dots _ _ => Some (lit "sufword", [Text chars; Dots dots])
  | RPrfword chars dots _ _ => Some (lit "prfword", [Text chars; Dots dots])
  | RBegword chars dots _ _ => Some (lit "begword", [Text chars; Dots dots])
  | RBegmidword chars dots _ _ => Some (lit "begmidword", [Text chars; Dots dots])
  | RMidword chars dots _ _ => Some (lit "midword", [Text chars; Dots dots])
  | RMidendword chars dots _ _ => Some (lit "midendword", [Text chars; Dots dots])
  | REndword chars dots _ _ => Some (lit "endword", [Text chars; Dots dots])
  | RPartword chars dots _ _ => Some (lit "partword", [Text chars; Dots dots])
  | RExactdots chars => Some (lit "exactdots", [Text chars])
  | RPrepunc chars dots _ => Some (lit "prepunc", [Text chars; Cells dots])
  | RPostpunc chars dots _ => Some (lit "postpunc", [Text chars; Cells dots])
  | RBegnum chars dots _ => Some (lit "begnum", [Text chars; Cells dots])
  | RMidnum chars dots _ => Some (lit "midnum", [Text chars; Cells dots])
  | REndnum chars dots _ => Some (lit "endnum", [Text chars; Dots dots])
  | RJoinnum chars dots _ => Some (lit "joinnum", [Text chars; Cells dots])
  | RAttribute name chars => Some (lit "attribute", [Name name; Text chars])
  | RSwapcd name chars dots => Some (lit "swapcd", [Name name; Text chars; CellsList dots])
  | RSwapdd name dots replacement => Some (lit "swapdd", [Name name; CellList dots; CellsList replacement])
  | RSwapcc name chars replacement => Some (lit "swapcc", [Name name; Text chars; Text replacement])
  | RContext test action _ => Some (lit "context", [Tests test; Actions action])
  | RPass2 test action _ => Some (lit "pass2", [Tests test; Actions action])
  | RPass3 test action _ => Some (lit "pass3", [Tests test; Actions action])
  | RPass4 test action _ => Some (lit "pass4", [Tests test; Actions action])
  | RCorrect test action _ => Some (lit "correct", [Tests test; Actions action])
  | RMatch pre chars post dots _ => Some (lit "match", [Pre pre; Text chars; Post post; Dots dots])
  | RLiteral chars => Some (lit "literal", [Text chars])
  end.
(** swap rules replace as many as they look for *)
Definition balanced (r : rule) : Prop :=
  match r with
  | RSwapcd _ chars dots => length chars = length dots
  | RSwapdd _ dots replacement => length dots = length replacement
  | RSwapcc _ chars replacement => length chars = length replacement
  | _ => True
  end.
(** the marks an opcode permits *)
Definition with_direction : list str := [
    lit "display"; lit "multind"; lit "space"; lit "punctuation"; lit "digit"; lit "grouping"; lit "letter";
    lit "lowercase"; lit "uppercase"; lit "litdigit"; lit "sign"; lit "math"; lit "modeletter";
    lit "capsletter"; lit "begmodeword"; lit "begcapsword"; lit "endcapsword"; lit "nocontractsign";
    lit "nonumsign"; lit "begemph"; lit "endemph"; lit "begcomp"; lit "endcomp"; lit "hyphen"; lit "compbrl";
    lit "repeated"; lit "word"; lit "lowword"; lit "context"; lit "pass2"; lit "pass3"; lit "pass4";
    lit "correct"; lit "match"].
Definition with_any_mark : list str := [
    lit "always"; lit "sufword"; lit "prfword"; lit "begword"; lit "begmidword"; lit "midword";
    lit "midendword"; lit "endword"; lit "partword"; lit "prepunc"; lit "postpunc"; lit "begnum";
    lit "midnum"; lit "endnum"; lit "joinnum"].
Definition permits (name : str) (k : constraints) : Prop :=
  In name with_any_mark \/ (In name with_direction /\ nocross k = false) \/ k = no_constraints.

(** the words in front of the opcode *)
Definition mark_words (k : constraints) : list str :=
  (if nofor k then [lit "nofor"] else []) ++ (if noback k then [lit "noback"] else []) ++ (if nocross k then [lit "nocross"] else []).
Definition one_way (k : constraints) : Prop := ~ (nofor k = true /\ noback k = true).
Definition class_words (w : list with_class) : list str :=
  flat_map (fun c => match c with WBefore n => [lit "before"; n] | WAfter n => [lit "after"; n] end) w.
Definition match_words (m : list str) : Prop := Forall (fun t => t = lit "empmatchbefore" \/ t = lit "empmatchafter") m.
(** the conditions before/after of a rule *)
Definition rule_classes (r : rule) : option (list with_class) :=
  match r with
  | RAlways _ _ _ w | RWord _ _ _ w | RSufword _ _ _ w | RPrfword _ _ _ w | RBegword _ _ _ w | RBegmidword _ _ _ w
  | RMidword _ _ _ w | RMidendword _ _ _ w | REndword _ _ _ w | RPartword _ _ _ w => Some w
  | _ => None
  end.
(** [written ts r rest]: the words [ts] are the rule [r], followed by [rest]. *)
Definition written (ts : list str) (r : rule) (rest : list str) : Prop :=
  exists k w m name items operands,
    ts = mark_words k ++ class_words w ++ m ++ name :: operands /\ one_way k /\ match_words m /\
    spelling r = Some (name, items) /\ reads_all items operands rest /\ balanced r /\
    permits name k /\ (rule_constraints r = Some k \/ rule_constraints r = None) /\
    (rule_classes r = Some w \/ rule_classes r = None).
