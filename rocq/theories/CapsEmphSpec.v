(** What a table says about capitals and emphasis, and the emphasis signs of a text. *)
From Verif Require Import Base RuleModel TranslationModel TableModel ConstraintModel IndicatorModel TraceSpec SignSpec EmphSpec.

(** the sign a table has for a purpose: that of the last rule of the kind *)
Definition sign_is (rules : list rule) (f : rule -> option str) (o : option resolved) : Prop :=
  match o with
  | Some t => exists r dots, last_with rules f r dots /\ t = sign dots r
  | None => forall r, In r rules -> f r = None
  end.
(** the value of a setting: that of the last rule of the kind, or the default *)
Definition value_is {A} (rules : list rule) (f : rule -> option A) (default v : A) : Prop :=
  (exists r, last_with rules f r v) \/ ((forall r, In r rules -> f r = None) /\ v = default).

(** ** Capitals *)
Record caps_rules (x : context) (rules : list rule) (u : caps_ind) : Prop := {
  cr_upper : forall c, In c (ui_upper u) <-> cls_has (x_chars x) CUppercase c = true;
  cr_letters : forall c, In c (ui_letters u) <-> cls_has (x_chars x) CLetter c = true;
  cr_spaces : forall c, cls_is_whitespace (ui_classes u) c = cls_has (x_chars x) CSpace c;
  cr_mode : value_is rules (fun r => match r with RCapsmodechars cs => Some cs | _ => None end) [] (ui_mode u);
  cr_letter : sign_is rules (fun r => match r with RCapsletter dots _ => Some dots | _ => None end) (ui_letter u);
  cr_begword : sign_is rules (fun r => match r with RBegcapsword dots _ => Some dots | _ => None end) (ui_begword u);
  cr_endword : sign_is rules (fun r => match r with REndcapsword dots _ => Some dots | _ => None end) (ui_endword u);
  cr_beg : sign_is rules (fun r => match r with RBegcaps dots => Some dots | _ => None end) (ui_beg u);
  cr_end : sign_is rules (fun r => match r with REndcaps dots => Some dots | _ => None end) (ui_end u);
  cr_begphrase : sign_is rules (fun r => match r with RBegcapsphrase dots => Some dots | _ => None end) (ui_begphrase u);
  cr_endphrase : sign_is rules (fun r => match r with REndcapsphrase dots _ => Some dots | _ => None end) (ui_endphrase u);
  cr_before : value_is rules (fun r => match r with REndcapsphrase _ PosBefore => Some true
                                               | REndcapsphrase _ PosAfter => Some false | _ => None end) true (ui_before u);
  cr_len : value_is rules (fun r => match r with RLencapsphrase n => Some (as_usize n) | _ => None end) 2%N (ui_len u) }.

(** ** Emphasis *)
(** [a], if the class [n] is the class [name] *)
Definition when {A} (name n : str) (a : A) : option A := if str_eqb n name then Some a else None.
Record emph_rules (x : context) (rules : list rule) (u : emph_class) : Prop := {
  er_letter : sign_is rules (fun r => match r with REmphletter n dots => when (em_name u) n dots | _ => None end) (em_letter u);
  er_beg : sign_is rules (fun r => match r with RBegemph n dots _ => when (em_name u) n dots | _ => None end) (em_beg u);
  er_end : sign_is rules (fun r => match r with REndemph n dots _ => when (em_name u) n dots | _ => None end) (em_end u);
  er_begword : sign_is rules (fun r => match r with RBegemphword n dots => when (em_name u) n dots | _ => None end) (em_begword u);
  er_endword : sign_is rules (fun r => match r with REndemphword n dots => when (em_name u) n dots | _ => None end) (em_endword u);
  er_begphrase : sign_is rules (fun r => match r with RBegemphphrase n dots => when (em_name u) n dots | _ => None end) (em_begphrase u);
  er_endphrase : sign_is rules (fun r => match r with REndemphphrase n dots _ => when (em_name u) n dots | _ => None end) (em_endphrase u);
  er_before : value_is rules (fun r => match r with REndemphphrase n _ PosBefore => when (em_name u) n true
                                               | REndemphphrase n _ PosAfter => when (em_name u) n false | _ => None end) true (em_before u);
  er_len : value_is rules (fun r => match r with RLenemphphrase n k => when (em_name u) n (as_usize k) | _ => None end) 4%N (em_len u);
  er_mode : value_is rules (fun r => match r with REmphmodechars n cs => when (em_name u) n cs | _ => None end) [] (em_mode u);
  er_no : value_is rules (fun r => match r with RNoemphchars n cs => when (em_name u) n cs | _ => None end) [] (em_no u);
  er_spaces : forall c, cls_is_whitespace (em_classes u) c = cls_has (x_chars x) CSpace c }.
(** a rule that makes a class one that is indicated *)
Definition emph_begin (r : rule) : Prop :=
  match r with REmphletter _ _ | RBegemph _ _ _ | RBegemphword _ _ | RBegemphphrase _ _ => True | _ => False end.
(** the classes of a table: those with some sign to begin with, in the order in which the
    table first speaks of them *)
Definition emph_classes (x : context) (rules : list rule) (us : list emph_class) : Prop :=
  NoDup (map em_name us) /\ Forall (emph_rules x rules) us /\
  (forall name, In name (map em_name us) <-> exists r, In r rules /\ speaks_of r name /\ emph_begin r) /\
  (forall i j u v, nth_error us i = Some u -> nth_error us j = Some v -> i < j ->
     exists l1 r l2, rules = l1 ++ r :: l2 /\ speaks_of r (em_name u) /\
       forall r', In r' l1 -> ~ speaks_of r' (em_name v)).

(** the signs of one class where it has no begemph: emphletter, begemphword and
    begemphphrase *)
Section Words.
Variable u : emph_class.
Variable chars : str.
Notation separator := (separator u chars).
(** the words of a run *)
Definition run_words (a b : nat) (ws : list (nat * nat)) : Prop := runs_in (fun q => ~ separator q) a b ws.
Definition put_sign (p : nat) (o : option resolved) (q : nat) (t : resolved) : Prop := q = p /\ o = Some t.
(** a word on its own: the letter sign for one character, else the word sign *)
Definition one_word (s e : nat) (q : nat) (t : resolved) : Prop :=
  (e = S s /\ em_letter u <> None /\ put_sign s (em_letter u) q t) \/
  ((e <> S s \/ em_letter u = None) /\ put_sign s (em_begword u) q t).
(** the run is made of whole words *)
Definition whole_words (first last : nat) : Prop :=
  (first = 0 \/ separator (first - 1)) /\ (length chars <= last \/ separator last).
Definition first_word (ws : list (nat * nat)) (w : nat * nat) : Prop := exists r, ws = w :: r.
Definition last_word (ws : list (nat * nat)) (w : nat * nat) : Prop := exists l, ws = l ++ [w].
Inductive word_sign (a b : nat) (ws : list (nat * nat)) (q : nat) (t : resolved) : Prop :=
| WS_phrase w w' : first_word ws w -> last_word ws w' -> whole_words (fst w) (snd w') ->
    (em_len u <= N.of_nat (length ws))%N -> em_begphrase u <> None ->
    (put_sign (fst w) (em_begphrase u) q t \/
     em_before u = true /\ one_word (fst w') (snd w') q t \/
     em_before u = false /\ put_sign (snd w') (em_endphrase u) q t) -> word_sign a b ws q t
| WS_words w w' v : first_word ws w -> last_word ws w' -> whole_words (fst w) (snd w') ->
    (N.of_nat (length ws) < em_len u)%N \/ em_begphrase u = None -> In v ws ->
    one_word (fst v) (snd v) q t -> word_sign a b ws q t
| WS_part_letter w w' : first_word ws w -> last_word ws w' -> ~ whole_words (fst w) (snd w') ->
    list_sum (map (fun v => snd v - fst v) ws) = 1 -> em_letter u <> None ->
    put_sign (fst w) (em_letter u) q t -> word_sign a b ws q t
| WS_part_word w w' : first_word ws w -> last_word ws w' -> ~ whole_words (fst w) (snd w') ->
    list_sum (map (fun v => snd v - fst v) ws) <> 1 \/ em_letter u = None -> em_begword u <> None ->
    (put_sign a (em_begword u) q t \/
     b < length chars /\ ~ separator b /\ put_sign b (em_endword u) q t) -> word_sign a b ws q t
| WS_part_phrase w w' : first_word ws w -> last_word ws w' -> ~ whole_words (fst w) (snd w') ->
    list_sum (map (fun v => snd v - fst v) ws) <> 1 \/ em_letter u = None -> em_begword u = None -> em_begphrase u <> None ->
    (put_sign a (em_begphrase u) q t \/
     b < length chars /\ put_sign b (em_endphrase u) q t) -> word_sign a b ws q t.
End Words.
(** the signs of one class: with begemph for whole runs, else for words *)
Definition class_event (u : emph_class) (index : nat) (chars : str) (spans : list span) (e : event) : Prop :=
  exists a b, emph_run u chars spans a b /\
  ((exists beg f, em_beg u = Some beg /\ run_starts u chars a b f /\
      (e = mk_event f (KOpen b) index beg \/
       exists t z, em_end u = Some t /\ run_stops u chars a b z /\ e = mk_event z (KClose f) index t)) \/
   (em_beg u = None /\ exists ws, run_words u chars a b ws /\ word_sign u chars a b ws (ev_pos e) (ev_sign e) /\
      ev_kind e = KUnordered /\ ev_class e = index)).
