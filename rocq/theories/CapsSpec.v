(** What the capital signs of a text are meant to be. *)
From Coq Require Import Sorted.
From Verif Require Import Base RuleModel TranslationModel TableModel ConstraintModel IndicatorModel.

Section Caps.
Variable u : caps_ind.
Variable chars : str.

(** [at_char f p]: there is a character at [p], and [f] is true of it *)
Definition at_char (f : char -> bool) (p : nat) : Prop :=
  match nth_error chars p with Some c => f c | None => false end = true.
Definition letter (p : nat) : Prop := at_char (fun c => mem c (ui_letters u)) p.
Definition capital (p : nat) : Prop := letter p /\ at_char (fun c => mem c (ui_upper u)) p.
Definition word_char (p : nat) : Prop := at_char (fun c => mem c (ui_letters u) || mem c (ui_mode u))%bool p.
Definition spaced (a b : nat) : Prop := exists q, a <= q < b /\ at_char (cls_is_whitespace (ui_classes u)) q.

(** [text_words from ws]: the words from [from] on are [ws]; a word is a maximal run of
    letters and capsmodechars *)
Inductive text_words : nat -> list (nat * nat) -> Prop :=
| TW_none from : (forall q, from <= q -> ~ word_char q) -> text_words from []
| TW_word from s e ws : from <= s -> s < e -> e <= length chars ->
    (forall q, from <= q < s -> ~ word_char q) -> (forall q, s <= q < e -> word_char q) -> ~ word_char e ->
    text_words e ws -> text_words from ((s, e) :: ws).

(** a word in capitals, from its first letter to its last *)
Record cap_word := mk_cap_word { cw_start : nat; cw_end : nat; cw_open : nat; cw_close : nat }.
Definition all_capitals (s e : nat) : Prop :=
  (exists q, s <= q < e /\ letter q) /\ (forall q, s <= q < e -> letter q -> capital q).
Definition in_capitals (w : cap_word) : Prop :=
  all_capitals (cw_start w) (cw_end w) /\
  cw_start w <= cw_open w /\ cw_open w < cw_close w /\ cw_close w <= cw_end w /\
  capital (cw_open w) /\ capital (cw_close w - 1) /\
  (forall q, cw_start w <= q < cw_end w -> letter q -> cw_open w <= q < cw_close w).

(** a stretch of capitals inside a word with other letters, and the letter that ends it *)
Record stretch := mk_stretch { st_open : nat; st_close : nat; st_next : option nat }.
(** the stretches of capitals in [from, e) *)
Inductive stretches (e : nat) : nat -> list stretch -> Prop :=
| ST_none from : (forall q, from <= q < e -> ~ capital q) -> stretches e from []
| ST_last from o c : from <= o -> o < c -> c <= e -> (forall q, from <= q < o -> ~ capital q) ->
    capital o -> capital (c - 1) -> (forall q, o <= q < c -> letter q -> capital q) ->
    (forall q, c <= q < e -> ~ letter q) ->
    stretches e from [mk_stretch o c None]
| ST_more from o c n l : from <= o -> o < c -> c <= n -> n < e -> (forall q, from <= q < o -> ~ capital q) ->
    capital o -> capital (c - 1) -> (forall q, o <= q < c -> letter q -> capital q) ->
    (forall q, c <= q < n -> ~ letter q) -> letter n -> ~ capital n ->
    stretches e n l -> stretches e from (mk_stretch o c (Some n) :: l).

(** the parts of a text: groups of words in capitals, and the other words *)
Inductive part := Group (ws : list cap_word) | Other (s e : nat) (ss : list stretch).
Definition part_words (x : part) : list (nat * nat) :=
  match x with
  | Group ws => map (fun w => (cw_start w, cw_end w)) ws
  | Other s e _ => [(s, e)]
  end.
Definition part_fits (x : part) : Prop :=
  match x with
  | Group ws => ws <> [] /\ Forall in_capitals ws
  | Other s e ss => ~ all_capitals s e /\ stretches e s ss
  end.
(** groups are as large as possible *)
Fixpoint apart (l : list part) : Prop :=
  match l with
  | Group _ :: r => (match r with Group _ :: _ => False | _ => True end) /\ apart r
  | Other _ _ _ :: r => apart r
  | [] => True
  end.
Definition text_parts (l : list part) : Prop :=
  text_words 0 (flat_map part_words l) /\ Forall part_fits l /\ apart l.

(** the number of words of a group: those not separated by a space count as one *)
Inductive counted : list cap_word -> nat -> Prop :=
| CN_one w : counted [w] 1
| CN_new w w' ws n : spaced (cw_close w) (cw_open w') -> counted (w' :: ws) n -> counted (w :: w' :: ws) (S n)
| CN_same w w' ws n : ~ spaced (cw_close w) (cw_open w') -> counted (w' :: ws) n -> counted (w :: w' :: ws) n.

(** ** The signs *)
(** a sign or pair of signs and the text it makes capital *)
Inductive mark :=
| LetterSign (o : nat)                          (* capsletter: one letter *)
| WordSign (o c : nat) (next : option nat)      (* begcapsword; endcapsword at [next] *)
| ModeSigns (o c : nat)                         (* begcaps, endcaps *)
| PhraseSigns (o c : nat)                       (* begcapsphrase, endcapsphrase *)
| PhraseOpen (o c : nat).                       (* begcapsphrase up to the last word *)
Definition from_to (m : mark) : nat * nat :=
  match m with
  | LetterSign o => (o, S o)
  | WordSign o c _ | ModeSigns o c | PhraseSigns o c | PhraseOpen o c => (o, c)
  end.
Definition put (p : nat) (t : option resolved) : list placed := match t with Some t => [(p, t)] | None => [] end.
Definition signs (m : mark) : list placed :=
  match m with
  | LetterSign o => put o (ui_letter u)
  | WordSign o _ None => put o (ui_begword u)
  | WordSign o _ (Some n) => put o (ui_begword u) ++ put n (ui_endword u)
  | ModeSigns o c => put o (ui_beg u) ++ put c (ui_end u)
  | PhraseSigns o c => put o (ui_begphrase u) ++
                       put c (match ui_endphrase u with Some e => Some e | None => ui_end u end)
  | PhraseOpen o _ => put o (ui_begphrase u)
  end.
(** a stretch of capitals: one letter, word signs, mode signs, or letter by letter *)
Inductive stretch_marked (o c : nat) (next : option nat) : list mark -> Prop :=
| SM_letter : ui_letter u <> None -> (forall q, o < q < c -> ~ letter q) ->
    stretch_marked o c next [LetterSign o]
| SM_word : ui_letter u = None \/ (exists q, o < q < c /\ letter q) ->
    ui_begword u <> None -> next = None \/ ui_endword u <> None ->
    stretch_marked o c next [WordSign o c next]
| SM_mode : ui_letter u = None \/ (exists q, o < q < c /\ letter q) ->
    ui_begword u = None \/ (next <> None /\ ui_endword u = None) -> ui_beg u <> None ->
    stretch_marked o c next [ModeSigns o c]
| SM_letters ps : (exists q, o < q < c /\ letter q) ->
    ui_begword u = None \/ (next <> None /\ ui_endword u = None) -> ui_beg u = None -> ui_letter u <> None ->
    (forall q, In q ps <-> o <= q < c /\ capital q) -> StronglySorted lt ps ->
    stretch_marked o c next (map LetterSign ps)
| SM_nothing : ui_letter u = None ->
    ui_begword u = None \/ (next <> None /\ ui_endword u = None) -> ui_beg u = None ->
    stretch_marked o c next [].
Inductive words_marked : list cap_word -> list mark -> Prop :=
| WM_nil : words_marked [] []
| WM_cons w ws m ms : stretch_marked (cw_open w) (cw_close w) None m -> words_marked ws ms ->
    words_marked (w :: ws) (m ++ ms).
Inductive stretches_marked : list stretch -> list mark -> Prop :=
| SSM_nil : stretches_marked [] []
| SSM_cons s ss m ms : stretch_marked (st_open s) (st_close s) (st_next s) m -> stretches_marked ss ms ->
    stretches_marked (s :: ss) (m ++ ms).
Definition first_open (ws : list cap_word) : nat := match ws with w :: _ => cw_open w | [] => 0 end.
Inductive part_marked : part -> list mark -> Prop :=
| PM_other s e ss m : stretches_marked ss m -> part_marked (Other s e ss) m
(* a passage *)
| PM_phrase ws w n : counted (ws ++ [w]) n -> (ui_len u <= N.of_nat n)%N -> ui_begphrase u <> None ->
    (ui_endphrase u = None \/ ui_before u = false) ->
    part_marked (Group (ws ++ [w])) [PhraseSigns (first_open (ws ++ [w])) (cw_close w)]
| PM_before ws w n m : counted (ws ++ [w]) n -> (ui_len u <= N.of_nat n)%N -> ui_begphrase u <> None ->
    ui_endphrase u <> None -> ui_before u = true -> stretch_marked (cw_open w) (cw_close w) None m ->
    part_marked (Group (ws ++ [w])) (PhraseOpen (first_open (ws ++ [w])) (cw_open w) :: m)
| PM_mode ws w n : counted (ws ++ [w]) n -> (ui_len u <= N.of_nat n)%N -> ui_begphrase u = None -> ui_beg u <> None ->
    part_marked (Group (ws ++ [w])) [ModeSigns (first_open (ws ++ [w])) (cw_close w)]
(* word by word *)
| PM_words ws n m : counted ws n ->
    (N.of_nat n < ui_len u)%N \/ (ui_begphrase u = None /\ ui_beg u = None) ->
    words_marked ws m -> part_marked (Group ws) m.
Inductive parts_marked : list part -> list mark -> Prop :=
| PS_nil : parts_marked [] []
| PS_cons x l m ms : part_marked x m -> parts_marked l ms -> parts_marked (x :: l) (m ++ ms).
End Caps.

(** ** What the signs mean for the reader *)
Section Meaning.
Variable u : caps_ind.
Variable chars : str.
Notation letter := (letter u chars).
Notation capital := (capital u chars).
(** the text a mark makes capital starts with a capital and has no other letters than
    capitals; endcapsword stands before the next letter of the word, which is no capital *)
Definition mark_right (m : mark) : Prop :=
  let (o, c) := from_to m in
  o <= c /\ c <= length chars /\ capital o /\ (forall q, o <= q < c -> letter q -> capital q) /\
  match m with
  | WordSign _ c (Some n) => c <= n < length chars /\ letter n /\ ~ capital n /\ forall q, c <= q < n -> ~ letter q
  | PhraseOpen _ c => capital c
  | _ => o < c
  end.
(** the marks follow one another *)
Fixpoint laid_out (from : nat) (ms : list mark) : Prop :=
  match ms with
  | [] => True
  | m :: r => from <= fst (from_to m) /\ laid_out (snd (from_to m)) r
  end.
Definition marked_capital (ms : list mark) (q : nat) : Prop :=
  exists m, In m ms /\ fst (from_to m) <= q < snd (from_to m).
(** the table can mark any capital *)
Definition can_mark : Prop :=
  ui_letter u <> None \/ ui_beg u <> None \/ (ui_begword u <> None /\ ui_endword u <> None).
End Meaning.
