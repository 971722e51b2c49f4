(** What the position restrictions and the indicator positions are meant to be, in terms of
    the text alone. *)
From Verif Require Import Base RuleModel TranslationModel TableModel HyphenationModel LoopModel ConstraintModel.

(** the character at a position is one of [l] *)
Definition at_in (chars : str) (pos : nat) (l : list char) : Prop :=
  exists c, nth_error chars pos = Some c /\ In c l.
(** the character before a position is one of [l] *)
Definition before_in (chars : str) (pos : nat) (l : list char) : Prop :=
  exists q, pos = S q /\ at_in chars q l.

(** ** Numbers *)
(** a number goes on at a position: a digit, a numericmodechars character or, if the table
    has none of those, a midnum character (or decimal point) followed by a digit *)
Definition number_goes_on (u : numeric_chars) (chars : str) (q : nat) : Prop :=
  at_in chars q (nu_digits u) \/ at_in chars q (nu_extra u) \/
  (nu_extra u = [] /\ at_in chars q (nu_mid u) /\ at_in chars (S q) (nu_digits u)).
(** a position belongs to a number: it starts with a digit and goes on to here *)
Definition in_number (u : numeric_chars) (chars : str) (p : nat) : Prop :=
  exists s, s <= p /\ at_in chars s (nu_digits u) /\ forall q, s < q <= p -> number_goes_on u chars q.
Definition number_starts (u : numeric_chars) (chars : str) (p : nat) : Prop :=
  at_in chars p (nu_digits u) /\ (p = 0 \/ ~ in_number u chars (p - 1)).
Definition number_ended (u : numeric_chars) (chars : str) (p : nat) : Prop :=
  0 < p /\ in_number u chars (p - 1) /\ ~ in_number u chars p /\ p < length chars.

(** ** Words *)
(** [s, e) is a maximal run of characters of [l] *)
Definition word_at (l : list char) (chars : str) (s e : nat) : Prop :=
  s < e /\ e <= length chars /\ (forall q, s <= q < e -> at_in chars q l) /\
  ~ before_in chars s l /\ ~ at_in chars e l.

(** ** Punctuation *)
(** rightwards from [p] a letter or digit is reached before a space *)
Definition word_follows (u : punct_chars) (chars : str) (p : nat) : Prop :=
  exists k, p < k /\ at_in chars k (pc_word u) /\
    forall j, p < j < k -> ~ at_in chars j (pc_word u) /\ ~ at_in chars j (pc_space u).
Definition word_precedes (u : punct_chars) (chars : str) (p : nat) : Prop :=
  exists k, k < p /\ at_in chars k (pc_word u) /\
    forall j, k < j < p -> ~ at_in chars j (pc_word u) /\ ~ at_in chars j (pc_space u).

(** ** Computer braille *)
Definition in_comp_span (spans : list span) (p : nat) : Prop :=
  exists s, In s spans /\ sp_class s = computer_braille /\ sp_start s <= p < sp_end s.

(** ** Capitals, backward: the cells read from left to right *)
Inductive caps_token :=
| CapsWord (dots letters : str) (close : option str)   (* begcapsword, letters, endcapsword *)
| CapsLetter (dots : str)
| Plain (c : char).
Definition opt_str (o : option str) : str := match o with Some s => s | None => [] end.
Definition token_text (t : caps_token) : str :=
  match t with
  | CapsWord dots letters close => dots ++ letters ++ opt_str close
  | CapsLetter dots => dots
  | Plain c => [c]
  end.
Definition begins (s : str) (dots : option str) : Prop := exists d r, dots = Some d /\ s = d ++ r.
(** [rest] is what follows the token *)
Definition token_fits (u : caps_cells) (t : caps_token) (rest : str) : Prop :=
  match t with
  | CapsWord dots letters close =>
      bc_begword u = Some dots /\
      (forall l1 l2, letters = l1 ++ l2 -> l2 <> [] -> ~ begins (l2 ++ opt_str close ++ rest) (bc_endword u)) /\
      (forall c, In c letters -> In c (bc_cells u)) /\
      match close with
      | Some e => bc_endword u = Some e
      | None => ~ begins rest (bc_endword u) /\ ~ at_in rest 0 (bc_cells u)
      end
  | CapsLetter dots => ~ begins (dots ++ rest) (bc_begword u) /\ bc_letter u = Some dots
  | Plain c => ~ begins (c :: rest) (bc_begword u) /\ ~ begins (c :: rest) (bc_letter u)
  end.
Inductive caps_read (u : caps_cells) : list caps_token -> Prop :=
| CR_nil : caps_read u []
| CR_cons t ts : token_fits u t (flat_map token_text ts) -> caps_read u ts -> caps_read u (t :: ts).
(** positions that come out in capitals, and with a capital first *)
Definition upper_position (ts : list caps_token) (p : nat) : Prop :=
  exists a dots letters close b, ts = a ++ CapsWord dots letters close :: b /\
    length (flat_map token_text a ++ dots) <= p < length (flat_map token_text a ++ dots ++ letters).
Definition title_position (ts : list caps_token) (p : nat) : Prop :=
  exists a dots b, ts = a ++ CapsLetter dots :: b /\ p = length (flat_map token_text a ++ dots).

(** ** compbrl *)
(** a trigger starts at [p] *)
Definition trigger_at (k : scanner) (chars : str) (p : nat) : Prop :=
  exists t r, In t (sc_triggers k) /\ skipn p chars = t ++ r /\ p < length chars.
Definition space_at (k : scanner) (chars : str) (p : nat) : Prop := is_space_at k chars p = true.
(** [s, e) is a maximal run without spaces *)
Definition text_word (k : scanner) (chars : str) (s e : nat) : Prop :=
  s < e /\ e <= length chars /\ (forall q, s <= q < e -> ~ space_at k chars q) /\
  (s = 0 \/ space_at k chars (s - 1)) /\ (e = length chars \/ space_at k chars e).

(** ** Hyphenation *)
(** the dictionary allows a break behind the letter at [p] *)
Definition break_behind (h : hyph) (letters : list char) (chars : str) (p : nat) : Prop :=
  exists s e bs, word_at letters chars s e /\ s <= p /\
    break_points h (firstn (e - s) (skipn s chars)) = Ok bs /\ nth (p - s) bs false = true.

(** ** Numbers, backward: the cells read from left to right *)
Inductive number_token := NumSign (dots : str) | NumEnd (dots : str) | NumDigit (c : char) | NumOther (c : char).
Definition number_text (t : number_token) : str :=
  match t with NumSign d | NumEnd d => d | NumDigit c | NumOther c => [c] end.
(** a number sign is read at the start of [s] unless a letter cell stands before it *)
Definition sign_here (u : number_cells) (before s : str) : Prop :=
  begins s (bn_sign u) /\ ~ before_in before (length before) (bn_letters u).
(** [number_read before inn ts]: behind the cells [before], within a number or not *)
Inductive number_read (u : number_cells) : str -> bool -> list number_token -> Prop :=
| NR_nil before inn : number_read u before inn []
| NR_sign before inn d ts : bn_sign u = Some d -> ~ before_in before (length before) (bn_letters u) ->
    number_read u (before ++ d) true ts -> number_read u before inn (NumSign d :: ts)
| NR_end before d ts : bn_end u = Some d -> ~ sign_here u before (d ++ flat_map number_text ts) ->
    number_read u (before ++ d) false ts -> number_read u before true (NumEnd d :: ts)
| NR_digit before c ts : In c (bn_digits u) -> ~ sign_here u before (c :: flat_map number_text ts) ->
    ~ begins (c :: flat_map number_text ts) (bn_end u) ->
    number_read u (before ++ [c]) true ts -> number_read u before true (NumDigit c :: ts)
| NR_other before inn c ts : ~ sign_here u before (c :: flat_map number_text ts) ->
    (inn = true -> ~ begins (c :: flat_map number_text ts) (bn_end u) /\ ~ In c (bn_digits u)) ->
    number_read u (before ++ [c]) false ts -> number_read u before inn (NumOther c :: ts).
Definition digit_position (ts : list number_token) (p : nat) : Prop :=
  exists a c b, ts = a ++ NumDigit c :: b /\ p = length (flat_map number_text a).

(** ** All restrictions together *)
(** what is written at each position of the text, and nowhere else *)
Record restrictions (k : constrainers) (chars : str) (spans : list span) (limits : pos_flags) : Prop := {
  rs_number : forall p, flag_at k_dont_contract limits p = true <->
    exists u, kc_numeric k = Some u /\ in_number u chars p;
  rs_comp : forall p, flag_at k_comp6 limits p = true <-> in_comp_span spans p /\ p < length chars;
  rs_upper : forall p, flag_at k_uppercase limits p = true <->
    exists u ts, kc_caps k = Some u /\ caps_read u ts /\ flat_map token_text ts = chars /\ upper_position ts p;
  rs_title : forall p, flag_at k_titlecase limits p = true <->
    exists u ts, kc_caps k = Some u /\ caps_read u ts /\ flat_map token_text ts = chars /\
                 title_position ts p /\ p < length chars;
  rs_digit : forall p, flag_at k_digit limits p = true <->
    exists u ts, kc_number k = Some u /\ number_read u [] false ts /\ flat_map number_text ts = chars /\
                 digit_position ts p;
  rs_break : forall p, flag_at k_break limits p = true <->
    exists h letters, kc_hyphen k = Some (h, letters) /\ break_behind h letters chars p;
  rs_prepunc : forall p, flag_at k_prepunc limits p = true <->
    exists u, kc_punct k = Some u /\ ~ before_in chars p (pc_letters u) /\ word_follows u chars p;
  rs_postpunc : forall p, flag_at k_postpunc limits p = true <->
    exists u, kc_punct k = Some u /\ ~ at_in chars (S p) (pc_letters u) /\ word_precedes u chars p /\ p < length chars }.
(** the cells and dictionaries of a compiled table *)
Record cells_ok (k : constrainers) : Prop := {
  ck_letter : forall u d, kc_caps k = Some u -> bc_letter u = Some d -> d <> [];
  ck_begword : forall u d, kc_caps k = Some u -> bc_begword u = Some d -> d <> [];
  ck_sign : forall u d, kc_number k = Some u -> bn_sign u = Some d -> d <> [];
  ck_end : forall u d, kc_number k = Some u -> bn_end u = Some d -> d <> [];
  ck_hyphen : forall h letters, kc_hyphen k = Some (h, letters) ->
    forall key tally, In (key, tally) (h_patterns h) -> length tally = S (length key) }.
