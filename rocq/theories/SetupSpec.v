(** What the rules of a table tell the main pass to watch for - the characters that make
    numbers, the hyphenation dictionary, the characters of words, and backward the cells of
    capital and number signs - and the restrictions on positions that follow. *)
From Verif Require Import Base RuleModel TranslationModel TableModel HyphenationModel LoopModel ConstraintModel ConstraintSpec SignSpec.

Section Setup.
Variable is_alphabetic : char -> bool.
Variable read_dictionary : str -> tres hyph.
Variable d : direction.
Variable x : context.
Variable rules : list rule.

(** the characters of numbers, of a table with digits *)
Definition numbers (u : numeric_chars) : Prop :=
  number_chars x rules u /\ exists c, cls_has (x_chars x) CLitdigit c = true.
(** the dictionary of a table, used forward: the last one it includes; words are made of
    letters *)
Definition included (r : rule) : option str := match r with RIncludeHyphenation path => Some path | _ => None end.
Definition hyphenates (h : hyph) (letters : list char) : Prop :=
  d = Forward /\ (exists r path, last_with rules included r path /\ read_dictionary path = TOk h) /\
  forall c, In c letters <-> cls_has (x_chars x) CLetter c = true.
(** forward, a table with prepunc or postpunc rules for punctuation *)
Definition punctuates (u : punct_chars) : Prop :=
  d = Forward /\
  (exists chars dots k, (In (RPrepunc chars dots k) rules \/ In (RPostpunc chars dots k) rules) /\
     forall c, In c chars -> cls_has (x_chars x) CPunctuation c = true) /\
  (forall c, In c (pc_letters u) <-> cls_has (x_chars x) CLetter c = true) /\
  (forall c, In c (pc_word u) <-> cls_has (x_chars x) CLetter c = true \/ cls_has (x_chars x) CDigit c = true) /\
  (forall c, In c (pc_space u) <-> cls_has (x_chars x) CSpace c = true).

(** ** Backward *)
(** the dots of a letter *)
Definition dots_of_letter (dots : str) : Prop :=
  exists c k, In (RLetter c dots k) rules \/ In (RLowercase c dots k) rules \/ In (RUppercase c dots k) rules.
(** the cells read as a sign: the dots of the last rule of the kind [f] with dots that are
    not those of a letter *)
Definition sign_cells (f : rule -> option str) (o : option str) : Prop :=
  match o with
  | Some dots => ~ dots_of_letter dots /\ exists r l1 l2, rules = l1 ++ r :: l2 /\ f r = Some dots /\
      forall r' dots', In r' l2 -> f r' = Some dots' -> dots_of_letter dots'
  | None => forall r dots, In r rules -> f r = Some dots -> dots_of_letter dots
  end.
(** the cells that stand for letters *)
Definition letter_cell (c : char) : Prop :=
  cls_has (x_dots x) CLetter c = true \/
  exists chars dots k w, In (RAlways chars dots k w) rules /\ (forall y, In y chars -> is_alphabetic y = true) /\
    match dots with Explicit cells => In c cells | Implicit => c = 61%N end.
Definition capsletter (r : rule) : option str := match r with RCapsletter dots _ => Some dots | _ => None end.
Definition begcapsword (r : rule) : option str := match r with RBegcapsword dots _ => Some dots | _ => None end.
Definition endcapsword (r : rule) : option str := match r with REndcapsword dots _ => Some dots | _ => None end.
Definition capital_cells (u : caps_cells) : Prop :=
  d = Backward /\ sign_cells capsletter (bc_letter u) /\ sign_cells begcapsword (bc_begword u) /\
  sign_cells endcapsword (bc_endword u) /\ (bc_letter u <> None \/ bc_begword u <> None) /\
  forall c, In c (bc_cells u) <-> letter_cell c.
Definition digit_signs (u : number_cells) : Prop :=
  d = Backward /\ sign_cells numsign (bn_sign u) /\ bn_sign u <> None /\ sign_cells nonumsign (bn_end u) /\
  (forall c, In c (bn_digits u) <-> cls_has (x_dots x) CDigit c = true \/ cls_has (x_dots x) CLitdigit c = true) /\
  (forall c, In c (bn_letters u) <-> letter_cell c).

(** ** All restrictions of a text *)
Record table_restricts (chars : str) (spans : list span) (limits : pos_flags) : Prop := {
  tr_number : forall p, flag_at k_dont_contract limits p = true <-> exists u, numbers u /\ in_number u chars p;
  tr_comp : forall p, flag_at k_comp6 limits p = true <-> in_comp_span spans p /\ p < length chars;
  tr_upper : forall p, flag_at k_uppercase limits p = true <->
    exists u ts, capital_cells u /\ caps_read u ts /\ flat_map token_text ts = chars /\ upper_position ts p;
  tr_title : forall p, flag_at k_titlecase limits p = true <->
    exists u ts, capital_cells u /\ caps_read u ts /\ flat_map token_text ts = chars /\
                 title_position ts p /\ p < length chars;
  tr_digit : forall p, flag_at k_digit limits p = true <->
    exists u ts, digit_signs u /\ number_read u [] false ts /\ flat_map number_text ts = chars /\
                 digit_position ts p;
  tr_break : forall p, flag_at k_break limits p = true <->
    exists h letters, hyphenates h letters /\ break_behind h letters chars p;
  tr_prepunc : forall p, flag_at k_prepunc limits p = true <->
    exists u, punctuates u /\ ~ before_in chars p (pc_letters u) /\ word_follows u chars p;
  tr_postpunc : forall p, flag_at k_postpunc limits p = true <->
    exists u, punctuates u /\ ~ at_in chars (S p) (pc_letters u) /\ word_precedes u chars p /\ p < length chars }.
End Setup.

(** ** What compbrl is to mark *)
Section Compbrl.
Variable x : context.
Variable rules : list rule.
Variable input : str.
Definition is_space (p : nat) : Prop := exists c, nth_error input p = Some c /\ cls_has (x_chars x) CSpace c = true.
(** the text of a compbrl rule starts at [p] *)
Definition compbrl_at (p : nat) : Prop :=
  p < length input /\ exists text k rest, In (RCompbrl text k) rules /\ skipn p input = text ++ rest.
(** [s, e) is a maximal run of characters that are not spaces *)
Definition whole_word (s e : nat) : Prop :=
  s < e /\ e <= length input /\ (forall q, s <= q < e -> ~ is_space q) /\
  (s = 0 \/ is_space (s - 1)) /\ (e = length input \/ is_space e).
Definition compbrl_word (s : span) : Prop :=
  sp_class s = computer_braille /\ whole_word (sp_start s) (sp_end s) /\
  exists p, sp_start s <= p < sp_end s /\ compbrl_at p.
(** a position in a span the caller has marked as computer braille, or in such a word *)
Definition in_computer_braille (spans : list span) (p : nat) : Prop :=
  in_comp_span spans p \/ exists s, compbrl_word s /\ sp_start s <= p < sp_end s.
(** the spans of the caller, and behind them those of the words compbrl marks, each once *)
Definition marked_spans (spans marked : list span) : Prop :=
  exists added, marked = spans ++ added /\ NoDup added /\
    forall s, In s added <-> compbrl_word s /\ ~ In s spans.
End Compbrl.
