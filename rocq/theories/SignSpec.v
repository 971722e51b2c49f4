(** Which signs of a trace come from which kind of rule, and the texts the rules for letter
    signs speak of. *)
From Verif Require Import Base RuleModel TranslationModel TableModel ConstraintModel TraceSpec ConstraintSpec.

Inductive family := Computer | Emphasis | Number | Letter | Capitals | Nocontract.
Definition family_eqb (a b : family) : bool :=
  match a, b with
  | Computer, Computer | Emphasis, Emphasis | Number, Number | Letter, Letter | Capitals, Capitals
  | Nocontract, Nocontract => true
  | _, _ => false
  end.
Definition sign_family (r : rule) : option family :=
  match r with
  | RBegcomp _ _ | REndcomp _ _ => Some Computer
  | REmphletter _ _ | RBegemph _ _ _ | REndemph _ _ _ | RBegemphword _ _ | REndemphword _ _ | RBegemphphrase _ _
  | REndemphphrase _ _ _ => Some Emphasis
  | RNumsign _ | RNonumsign _ _ => Some Number
  | RLetsign _ => Some Letter
  | RCapsletter _ _ | RBegcapsword _ _ | REndcapsword _ _ | RBegcaps _ | REndcaps _ | RBegcapsphrase _
  | REndcapsphrase _ _ => Some Capitals
  | RNocontractsign _ _ => Some Nocontract
  | _ => None
  end.
Definition of_family (f : family) (t : resolved) : bool :=
  match r_origin t with
  | Some r => match sign_family r with Some g => family_eqb f g | None => false end
  | None => false
  end.
(** the signs of one kind put in at [p] *)
Definition signs_of (f : family) (out : list resolved) (p : nat) : list resolved :=
  filter (of_family f) (signs_put out p).
(** the last rule of the table that is [f] for something *)
Definition last_with {A} (rules : list rule) (f : rule -> option A) (r : rule) (a : A) : Prop :=
  exists l1 l2, rules = l1 ++ r :: l2 /\ f r = Some a /\ forall r', In r' l2 -> f r' = None.

(** the class of emphasis a rule speaks of *)
Inductive speaks_of : rule -> str -> Prop :=
| SO_class n : speaks_of (REmphclass n) n
| SO_letter n d : speaks_of (REmphletter n d) n
| SO_begword n d : speaks_of (RBegemphword n d) n
| SO_endword n d : speaks_of (REndemphword n d) n
| SO_begphrase n d : speaks_of (RBegemphphrase n d) n
| SO_endphrase n d p : speaks_of (REndemphphrase n d p) n
| SO_len n k : speaks_of (RLenemphphrase n k) n
| SO_beg n d k : speaks_of (RBegemph n d k) n
| SO_end n d k : speaks_of (REndemph n d k) n
| SO_mode n cs : speaks_of (REmphmodechars n cs) n
| SO_no n cs : speaks_of (RNoemphchars n cs) n.

(** ** Numbers: the characters the table says make them *)
Record number_chars (x : context) (rules : list rule) (u : numeric_chars) : Prop := {
  nc_digits : forall c, In c (nu_digits u) <-> cls_has (x_chars x) CLitdigit c = true;
  nc_extra : forall c, In c (nu_extra u) <-> exists r cs,
    last_with rules (fun r => match r with RNumericmodechars cs => Some cs | _ => None end) r cs /\ In c cs;
  nc_mid : forall c, In c (nu_mid u) <-> (exists dots, In (RDecpoint c dots) rules) \/
    (exists cs dots k, In (RMidnum cs dots k) rules /\ In c cs) }.
Definition numsign (r : rule) : option str := match r with RNumsign dots => Some dots | _ => None end.
Definition nonumsign (r : rule) : option str := match r with RNonumsign dots _ => Some dots | _ => None end.
Definition nocontchars (r : rule) : option str := match r with RNumericnocontchars cs => Some cs | _ => None end.

(** ** Computer braille *)
Definition begcomp (r : rule) : option str := match r with RBegcomp dots _ => Some dots | _ => None end.
Definition endcomp (r : rule) : option str := match r with REndcomp dots _ => Some dots | _ => None end.
(** a span of computer braille from [a] to [e] within a text of [n] characters *)
Definition comp_from_to (n : nat) (s : span) (a e : nat) : Prop :=
  sp_class s = computer_braille /\ a = sp_start s /\ e = Nat.min (sp_end s) n /\ a < e.

(** ** Letter signs *)
Definition letsign (r : rule) : option str := match r with RLetsign dots => Some dots | _ => None end.
Definition nocontractsign (r : rule) : option str := match r with RNocontractsign dots _ => Some dots | _ => None end.
Section LetterSigns.
Variable x : context.
Variable rules : list rule.
Definition some_char (o : option char) (P : char -> Prop) : Prop := exists c, o = Some c /\ P c.
Definition a_letter (c : char) : Prop := exists k, In k [CLetter; CUppercase; CLowercase] /\ cls_has (x_chars x) k c = true.
Definition a_space (c : char) : Prop := cls_has (x_chars x) CSpace c = true.
Definition listed (f : rule -> list char) (c : char) : Prop := exists r, In r rules /\ In c (f r).
Definition noletsign := listed (fun r => match r with RNoletsign cs => cs | _ => [] end).
Definition noletsignafter := listed (fun r => match r with RNoletsignafter cs => cs | _ => [] end).
Definition noletsignbefore := listed (fun r => match r with RNoletsignbefore cs => cs | _ => [] end).
(** a letter with no letter behind it and neither a letter nor a space before it *)
Definition stands_alone (input : str) (p : nat) : Prop :=
  some_char (nth_error input p) (fun c => a_letter c /\ ~ noletsign c) /\
  ~ some_char (char_before input p) (fun c => a_letter c \/ a_space c \/ noletsignafter c) /\
  ~ some_char (nth_error input (S p)) (fun c => a_letter c \/ noletsignbefore c).
(** the text of a contraction rule, in either case, as a word of its own *)
Definition word_boundary (o : option char) : Prop :=
  match o with
  | None => True
  | Some c => cls_has (x_chars x) CSpace c = true \/ cls_has (x_chars x) CPunctuation c = true
  end.
Definition reads_as_contraction (lower : char -> list char) (input : str) (p : nat) : Prop :=
  exists c txt rest, In (RContraction c) rules /\ skipn p input = txt ++ rest /\
    map lower txt = map (fun y => [y]) c /\ word_boundary (char_before input p) /\ word_boundary (hd_error rest).
End LetterSigns.
