(** Model of src/translator/indication.rs and src/translator/indication/{numeric,
    computer_braille, nocontract, lettersign, uppercase, emphasis}.rs, of their builders as
    fed by src/translator/table/primary.rs:411-1390, and of the whole main pass
    ([PrimaryTable::compile] and [PrimaryTable::trace]).

    Every builder keeps, of several rules with the same opcode, the last one, unless said
    otherwise.  A [HashSet<char>] is a list.  [Vec::sort_by_key] is the stable sort. *)
From Coq Require Import Strings.String ZArith.
From Coq Require Import List.
From Verif Require Import Base RuleModel TranslationModel TableModel RegexpModel PatternModel TrieModel
  HyphenationModel LoopModel CompileModel ConstraintModel.

(** [make_translation] of the indicators: no text, the dots, weight 1. *)
Definition sign (dots : str) (r : rule) : resolved := resolved_new [] dots 1 Main (Some r).
Definition placed := (nat * resolved)%type.

(** Stable sort by position ([sort_by_key(|(pos, _)| *pos)]). *)
Fixpoint insert_pos {A} (x : nat * A) (l : list (nat * A)) : list (nat * A) :=
  match l with
  | [] => [x]
  | y :: r => if Nat.leb (fst x) (fst y) then x :: l else y :: insert_pos x r
  end.
Definition sort_pos {A} (l : list (nat * A)) : list (nat * A) := fold_right insert_pos [] l.

(** indication.rs:33-60 [find_spans] in [chars[start..end)]: the maximal runs of
    characters satisfying [p]; [s] are the characters from [pos] on up to the end. *)
Fixpoint spans_from (p : char -> bool) (s : str) (pos : nat) (open : option nat) : list (nat * nat) :=
  match s with
  | [] => match open with Some st => [(st, pos)] | None => [] end
  | c :: r =>
      if p c then spans_from p r (S pos) (match open with Some st => Some st | None => Some pos end)
      else match open with
           | Some st => (st, pos) :: spans_from p r (S pos) None
           | None => spans_from p r (S pos) None
           end
  end.
Definition find_spans (p : char -> bool) (chars : str) (start stop : nat) : list (nat * nat) :=
  spans_from p (firstn (stop - start) (skipn start chars)) start None.

(** ** numeric.rs:76-137 *)
Record numeric_ind := mk_numeric_ind {
  ni_chars : numeric_chars; ni_start : resolved; ni_end : option resolved; ni_stop : list char }.
Fixpoint numeric_loop (u : numeric_ind) (in_numeric : bool) (pos : nat) (s : str) : list placed :=
  match s with
  | [] => []
  | c :: r =>
      let k := ni_chars u in
      if mem c (nu_digits k)
      then (if in_numeric then [] else [(pos, ni_start u)]) ++ numeric_loop u true (S pos) r
      else if (in_numeric && mem c (nu_extra k))%bool then numeric_loop u true (S pos) r
      else if (in_numeric && is_empty (nu_extra k) && mem c (nu_mid k) &&
               match r with c' :: _ => mem c' (nu_digits k) | [] => false end)%bool
      then numeric_loop u true (S pos) r
      else (if (in_numeric && mem c (ni_stop u))%bool
            then match ni_end u with Some t => [(pos, t)] | None => [] end else [])
           ++ numeric_loop u false (S pos) r
  end.
Definition numeric_precompute (u : numeric_ind) (chars : str) : list placed := numeric_loop u false 0 chars.

(** ** computer_braille.rs:51-94 *)
Record comp_ind := mk_comp_ind { ci_beg : resolved; ci_end : option resolved }.
Definition comp_precompute (u : comp_ind) (chars : str) (spans : list span) : list placed :=
  sort_pos (flat_map (fun s =>
    if str_eqb (sp_class s) computer_braille then
      let e := Nat.min (sp_end s) (length chars) in
      if Nat.leb e (sp_start s) then []
      else (sp_start s, ci_beg u) :: match ci_end u with Some t => [(e, t)] | None => [] end
    else []) spans).

(** ** nocontract.rs:98-131 and lettersign.rs:134-225 *)
Section Tries.
Variable lower : char -> list char.
(** the positions where a contraction is found *)
Fixpoint contraction_positions (trie : node) (prev : option char) (pos : nat) (s : str) : list nat :=
  match s with
  | [] => []
  | c :: r => (if is_empty (find_translations lower trie s prev) then [] else [pos])
              ++ contraction_positions trie (Some c) (S pos) r
  end.
Record nocont_ind := mk_nocont_ind { no_trie : node; no_sign : resolved }.
Definition nocont_precompute (u : nocont_ind) (chars : str) : list placed :=
  map (fun pos => (pos, no_sign u)) (contraction_positions (no_trie u) None 0 chars).

Record letter_ind := mk_letter_ind {
  li_trie : node; li_sign : resolved; li_letters : list char; li_spaces : list char;
  li_never : list char; li_after : list char; li_before : list char }.
(** lettersign.rs:168-190: an isolated letter. *)
Definition has (l : list char) (o : option char) : bool :=
  match o with Some c => mem c l | None => false end.
Definition isolated_at (u : letter_ind) (chars : str) (pos : nat) : bool :=
  let prev := char_before chars pos in
  let next := nth_error chars (S pos) in
  match nth_error chars pos with
  | None => false
  | Some c =>
      (mem c (li_letters u) && negb (mem c (li_never u)) && negb (has (li_after u) prev) &&
       negb (has (li_before u) next) && negb (has (li_letters u) next) &&
       negb (has (li_spaces u) prev || has (li_letters u) prev))%bool
  end.
(** lettersign.rs:192-206: a contraction. *)
Definition contraction_at (u : letter_ind) (chars : str) (pos : nat) : bool :=
  match nth_error chars pos with
  | None => false
  | Some c => (negb (mem c (li_never u)) &&
               negb (is_empty (find_translations lower (li_trie u) (skipn pos chars) (char_before chars pos))))%bool
  end.
(** 152-214: the set of positions, in order. *)
Definition letter_precompute (u : letter_ind) (chars : str) : list placed :=
  map (fun pos => (pos, li_sign u))
      (filter (fun pos => isolated_at u chars pos || contraction_at u chars pos)%bool
              (seq 0 (length chars))).
End Tries.

(** ** uppercase.rs *)
Record caps_ind := mk_caps_ind {
  ui_upper : list char; ui_mode : list char; ui_letters : list char; ui_classes : classes;
  ui_letter : option resolved; ui_begword : option resolved; ui_endword : option resolved;
  ui_beg : option resolved; ui_end : option resolved; ui_begphrase : option resolved;
  ui_endphrase : option resolved; ui_before : bool; ui_len : N }.
Section Caps.
Variable u : caps_ind.
Variable chars : str.
(** 174-195. *)
Definition caps_indicating : bool :=
  match ui_letter u, ui_begword u, ui_beg u, ui_begphrase u with
  | None, None, None, None => false
  | _, _, _, _ => true
  end.
Definition is_letter (c : char) : bool := mem c (ui_letters u).
Definition is_upper (c : char) : bool := mem c (ui_upper u).
Definition is_word_char (c : char) : bool := (is_letter c || mem c (ui_mode u))%bool.
Definition is_space (c : char) : bool := cls_is_whitespace (ui_classes u) c.
(** 198-200 [find_words]. *)
Definition find_words : list (nat * nat) := find_spans is_word_char chars 0 (length chars).
Definition at_pos (p : char -> bool) (pos : nat) : bool :=
  match nth_error chars pos with Some c => p c | None => false end.
Definition upto (start stop : nat) : list nat := seq start (stop - start).
(** 202-230 [classify_word]: first letter, position after the last letter and number of
    letters if all letters are capitals and there is one. *)
Definition letters_in (start stop : nat) : list nat := filter (at_pos is_letter) (upto start stop).
Definition classify_word (start stop : nat) : option (nat * nat * nat) :=
  let ls := letters_in start stop in
  if (existsb (at_pos is_upper) ls && forallb (at_pos is_upper) ls)%bool
  then Some (hd 0 ls, S (last ls 0), length ls)
  else None.

(** 121-134, 232-284 [Run], [upper_runs]. *)
Record run := mk_run { ru_open : nat; ru_close : nat; ru_count : nat; ru_trigger : option nat }.
Definition capital_at (i : nat) : bool := (at_pos is_letter i && at_pos is_upper i)%bool.
(** 243-258: from [j], with the run so far; gives the end of the run, its number of letters
    and where the scan stopped.  [todo] positions remain. *)
Fixpoint run_scan (todo j close count : nat) : nat * nat * nat :=
  match todo with
  | 0 => (close, count, j)
  | S t => if at_pos is_letter j
           then if at_pos is_upper j then run_scan t (S j) (S j) (S count) else (close, count, j)
           else run_scan t (S j) close count
  end.
(** 262-270 ([needs_close] and [close_trigger]): the next letter of the word. *)
Definition next_letter (start stop : nat) : option nat := hd_error (letters_in start stop).
(** 236-282. *)
Fixpoint upper_runs (fuel i stop : nat) : list run :=
  match fuel with
  | 0 => []
  | S f =>
      if Nat.leb stop i then []
      else if capital_at i then
        let '(close, count, j) := run_scan (stop - S i) (S i) (S i) 1 in
        mk_run i close count (next_letter close stop) :: upper_runs f j stop
      else upper_runs f (S i) stop
  end.
(** 286-300 [emit_letterwise]. *)
Definition letterwise (start stop : nat) : list placed :=
  match ui_letter u with
  | Some t => map (fun i => (i, t)) (filter capital_at (upto start stop))
  | None => []
  end.
Definition opt_at (pos : nat) (t : option resolved) : list placed :=
  match t with Some t => [(pos, t)] | None => [] end.
(** 323-330, 368-375: begcaps, or letter by letter. *)
Definition mode_tier (open close : nat) : list placed :=
  match ui_beg u with
  | Some b => (open, b) :: opt_at close (ui_end u)
  | None => letterwise open close
  end.
(** 302-331 [emit_run]. *)
Definition caps_emit_run (r : run) : list placed :=
  match (if Nat.eqb (ru_count r) 1 then ui_letter u else None) with
  | Some t => [(ru_open r, t)]
  | None =>
      match ui_begword u, ru_trigger r, ui_endword u with
      | Some b, None, _ => [(ru_open r, b)]
      | Some b, Some q, Some e => [(ru_open r, b); (q, e)]
      | _, _, _ => mode_tier (ru_open r) (ru_close r)
      end
  end.
(** 333-343 [emit_partial_word]. *)
Definition emit_partial_word (start stop : nat) : list placed :=
  flat_map caps_emit_run (upper_runs (S stop) start stop).
(** 348-376 [emit_whole_word]. *)
Definition emit_whole_word (w : nat * nat * nat) : list placed :=
  let '(open, close, count) := w in
  match (if Nat.eqb count 1 then ui_letter u else None) with
  | Some t => [(open, t)]
  | None => match ui_begword u with
            | Some b => [(open, b)]
            | None => mode_tier open close
            end
  end.
(** 381-426 [emit_group]; [w] is the first word and [ws] are the others. *)
Definition emit_group (w : nat * nat * nat) (ws : list (nat * nat * nat)) (words : nat) : list placed :=
  let '(first_open, _, _) := w in
  let '(last_open, last_close, last_count) := last ws w in
  let single := flat_map emit_whole_word (w :: ws) in
  if N.leb (ui_len u) (N.of_nat words) then
    match ui_begphrase u with
    | Some b => (first_open, b) ::
        match ui_endphrase u with
        | Some e => if ui_before u then emit_whole_word (last_open, last_close, last_count)
                    else [(last_close, e)]
        | None => opt_at last_close (ui_end u)
        end
    | None => match ui_beg u with
              | Some b => (first_open, b) :: opt_at last_close (ui_end u)
              | None => single
              end
    end
  else single.
Definition flush (group : list (nat * nat * nat)) (words : nat) : list placed :=
  match group with [] => [] | w :: ws => emit_group w ws words end.
(** 454-457: [chars[prev..open]] contains a space; the slice panics if the bounds are
    swapped. *)
Definition space_between (a b : nat) : res bool :=
  if Nat.ltb b a then Panic else Ok (existsb (at_pos is_space) (upto a b)).
(** 443-477. *)
Fixpoint caps_words (ws : list (nat * nat)) (group : list (nat * nat * nat)) (words : nat)
         (prev_close : option nat) : res (list placed) :=
  match ws with
  | [] => Ok (flush group words)
  | (s, e) :: rest =>
      match classify_word s e with
      | Some (open, close, count) =>
          do new <- match prev_close with Some p => space_between p open | None => Ok true end;
          caps_words rest (group ++ [(open, close, count)]) (if new then S words else words) (Some close)
      | None =>
          do r <- caps_words rest [] 0 None;
          Ok (flush group words ++ emit_partial_word s e ++ r)
      end
  end.
(** 429-481 [precompute]. *)
Definition caps_precompute : res (list placed) :=
  if caps_indicating then do l <- caps_words find_words [] 0 None; Ok (sort_pos l) else Ok [].
End Caps.

(** ** emphasis.rs *)
(** 22-40 [EmitKind]. *)
Inductive kind := KOpen (run_end : nat) | KClose (emit_start : nat) | KUnordered.
(** 42-79 [ClassIndicator]. *)
Record emph_class := mk_emph_class {
  em_name : str; em_letter : option resolved; em_beg : option resolved; em_end : option resolved;
  em_begword : option resolved; em_endword : option resolved; em_begphrase : option resolved;
  em_endphrase : option resolved; em_before : bool; em_len : N; em_mode : list char;
  em_no : list char; em_classes : classes }.
(** An event: position, kind, class index and translation. *)
Record event := mk_event { ev_pos : nat; ev_kind : kind; ev_class : nat; ev_sign : resolved }.
Section Emphasis.
Variable u : emph_class.
Variable index : nat.
Variable chars : str.
(** 100-106. *)
Definition emph_sep (c : char) : bool :=
  if is_empty (em_mode u) then cls_is_whitespace (em_classes u) c else mem c (em_mode u).
Definition sep_at (pos : nat) : bool := at_pos chars emph_sep pos.
(** 112-126 [active_positions]. *)
Definition active_at (spans : list span) (pos : nat) : bool :=
  (existsb (fun s => (str_eqb (sp_class s) (em_name u) && Nat.leb (sp_start s) pos &&
                      Nat.ltb pos (Nat.min (sp_end s) (length chars)))%bool) spans &&
   negb (at_pos chars (fun c => mem c (em_no u)) pos))%bool.
(** 128-137 [find_word_segments]. *)
Definition emph_words (start stop : nat) : list (nat * nat) :=
  find_spans (fun c => negb (emph_sep c)) chars start stop.
(** 139-144. *)
Definition emph_indicating : bool :=
  match em_letter u, em_begword u, em_beg u, em_begphrase u with
  | None, None, None, None => false
  | _, _, _, _ => true
  end.
Definition first_text (start stop : nat) : option nat :=
  hd_error (filter (fun i => negb (sep_at i)) (upto start stop)).
Definition last_text (start stop : nat) : option nat :=
  hd_error (filter (fun i => negb (sep_at i)) (rev (upto start stop))).
Definition ev (pos : nat) (k : kind) (t : resolved) : event := mk_event pos k index t.
Definition opt_ev (pos : nat) (t : option resolved) : list event :=
  match t with Some t => [ev pos KUnordered t] | None => [] end.
(** 262-280 [emit_single_word]; [word_end - word_start] is positive. *)
Definition emit_single_word (w : nat * nat) : list event :=
  match (if Nat.eqb (snd w - fst w) 1 then em_letter u else None) with
  | Some t => [ev (fst w) KUnordered t]
  | None => opt_ev (fst w) (em_begword u)
  end.
(** 231-260 [emit_clean_words]; [w] is the first word. *)
Definition emit_clean_words (w : nat * nat) (ws : list (nat * nat)) : list event :=
  let lw := last ws w in
  match (if N.leb (em_len u) (N.of_nat (S (length ws))) then em_begphrase u else None) with
  | Some b => ev (fst w) KUnordered b ::
              (if em_before u then emit_single_word lw else opt_ev (snd lw) (em_endphrase u))
  | None => flat_map emit_single_word (w :: ws)
  end.
(** 282-324 [emit_partial]. *)
Definition emit_partial (start stop : nat) (w : nat * nat) (ws : list (nat * nat)) : list event :=
  let total := list_sum (map (fun p => snd p - fst p) (w :: ws)) in
  match (if Nat.eqb total 1 then em_letter u else None) with
  | Some t => [ev (fst w) KUnordered t]
  | None =>
      match em_begword u, em_begphrase u with
      | Some b, _ => ev start KUnordered b ::
          (if (Nat.ltb stop (length chars) && negb (sep_at stop))%bool then opt_ev stop (em_endword u) else [])
      | None, Some b => ev start KUnordered b ::
          (if Nat.ltb stop (length chars) then opt_ev stop (em_endphrase u) else [])
      | None, None => []
      end
  end.
(** 168-229 [emit_run]. *)
Definition emph_emit_run (start stop : nat) : list event :=
  let first := match first_text start stop with Some i => i | None => start end in
  match em_beg u with
  | Some b =>
      ev first (KOpen stop) b ::
      match em_end u with
      | Some e => [ev (match last_text start stop with Some i => S i | None => stop end) (KClose first) e]
      | None => []
      end
  | None =>
      match emph_words start stop with
      | [] => []
      | w :: ws =>
          let stop' := match last_text start stop with Some i => S i | None => start end in
          let starts_clean := (Nat.eqb first 0 || sep_at (first - 1))%bool in
          let ends_clean := (Nat.leb (length chars) stop' || sep_at stop')%bool in
          if (starts_clean && ends_clean)%bool then emit_clean_words w ws
          else emit_partial start stop w ws
      end
  end.
(** 146-166 [emit]: the maximal active runs. *)
Fixpoint runs_from (active : nat -> bool) (todo pos : nat) (open : option nat) : list (nat * nat) :=
  match todo with
  | 0 => match open with Some st => [(st, pos)] | None => [] end
  | S t => if active pos then runs_from active t (S pos) (match open with Some st => Some st | None => Some pos end)
           else match open with
                | Some st => (st, pos) :: runs_from active t (S pos) None
                | None => runs_from active t (S pos) None
                end
  end.
Definition active_runs (spans : list span) : list (nat * nat) :=
  runs_from (active_at spans) (length chars) 0 None.
Definition emph_emit (spans : list span) : list event :=
  flat_map (fun r => emph_emit_run (fst r) (snd r)) (active_runs spans).
End Emphasis.

(** 469-489: the comparison (it is not transitive when signs of different kinds meet at one
    position). *)
Definition event_cmp (a b : event) : comparison :=
  match Nat.compare (ev_pos a) (ev_pos b) with
  | Eq => match ev_kind a, ev_kind b with
          | KOpen ra, KOpen rb =>
              match Nat.compare rb ra with Eq => Nat.compare (ev_class b) (ev_class a) | c => c end
          | KClose sa, KClose sb =>
              match Nat.compare sb sa with Eq => Nat.compare (ev_class a) (ev_class b) | c => c end
          | _, _ => Eq
          end
  | c => c
  end.
(** [slice::sort_by] of the standard library: up to 20 elements it is the insertion sort that
    moves each element to the left past the larger ones before it; for longer lists the result
    for an inconsistent comparison is not specified (it may also panic), which is left to the
    argument [long_sort]. *)
Definition event_less (a b : event) : bool := match event_cmp a b with Lt => true | _ => false end.
(** [rev_sorted] is the sorted part, last element first. *)
Fixpoint shift_left (x : event) (rev_sorted : list event) : list event :=
  match rev_sorted with
  | [] => [x]
  | y :: r => if event_less x y then y :: shift_left x r else x :: rev_sorted
  end.
Definition insertion_sort (l : list event) : list event :=
  rev (fold_left (fun acc x => shift_left x acc) l []).
Definition event_sort (long_sort : list event -> res (list event)) (l : list event) : res (list event) :=
  if Nat.leb (length l) 20 then Ok (insertion_sort l) else long_sort l.
Fixpoint emph_events (us : list emph_class) (index : nat) (chars : str) (spans : list span) : list event :=
  match us with
  | [] => []
  | u :: r => emph_emit u index chars spans ++ emph_events r (S index) chars spans
  end.
(** 448-495 [precompute]. *)
Definition emph_precompute (long_sort : list event -> res (list event)) (us : list emph_class)
           (chars : str) (spans : list span) : res (list placed) :=
  do es <- event_sort long_sort (emph_events us 0 chars spans);
  Ok (map (fun e => (ev_pos e, ev_sign e)) es).

(** ** indication.rs:62-108 *)
Record indicators := mk_indicators {
  in_comp : option comp_ind; in_emph : list emph_class; in_numeric : option numeric_ind;
  in_letter : option letter_ind; in_caps : option caps_ind; in_nocont : option nocont_ind }.
(** 100-102: [indications[pos].push(t)] into [n + 1] slots. *)
Definition all_placed (n : nat) (l : list placed) : res (list (list resolved)) :=
  if forallb (fun x => Nat.leb (fst x) n) l
  then Ok (map (fun pos => map snd (filter (fun x => Nat.eqb (fst x) pos) l)) (seq 0 (S n)))
  else Panic.
Definition opt_placed {A} (o : option A) (f : A -> list placed) : list placed :=
  match o with Some a => f a | None => [] end.
(** 84-107 [precompute]. *)
Definition indications_of (lower : char -> list char) (long_sort : list event -> res (list event))
           (i : indicators) (chars : str) (spans : list span) : res (list (list resolved)) :=
  do em <- emph_precompute long_sort (in_emph i) chars spans;
  do caps <- match in_caps i with Some u => caps_precompute u chars | None => Ok [] end;
  all_placed (length chars)
    (opt_placed (in_comp i) (fun u => comp_precompute u chars spans) ++ em ++
     opt_placed (in_numeric i) (fun u => numeric_precompute u chars) ++
     opt_placed (in_letter i) (fun u => letter_precompute lower u chars) ++ caps ++
     opt_placed (in_nocont i) (fun u => nocont_precompute lower u chars)).

(** ** The builders *)
Section Build.
Variable compat : bool.
Variable d : direction.
Variable x : context.
Variable rules : list rule.
Notation last_some := (last_some rules).

(** numeric.rs:31-74. *)
Definition build_numeric_ind : option numeric_ind :=
  match last_some (fun r => match r with RNumsign dots => Some (sign dots r) | _ => None end) with
  | Some t =>
      if is_empty (digits x) then None
      else Some (mk_numeric_ind (mk_numeric_chars (digits x) (extra_numeric rules) (mid_numeric rules)) t
             (last_some (fun r => match r with RNonumsign dots _ => Some (sign dots r) | _ => None end))
             match last_some (fun r => match r with RNumericnocontchars cs => Some cs | _ => None end) with
             | Some cs => cs | None => [] end)
  | None => None
  end.
(** computer_braille.rs:18-49. *)
Definition build_comp_ind : option comp_ind :=
  match last_some (fun r => match r with RBegcomp dots _ => Some (sign dots r) | _ => None end) with
  | Some t => Some (mk_comp_ind t (last_some (fun r => match r with REndcomp dots _ => Some (sign dots r) | _ => None end)))
  | None => None
  end.
(** The contractions, a [HashMap] (nocontract.rs:93-95, lettersign.rs:117-119): without
    duplicates; the order in which they are inserted is not determined, see [contraction_trie]. *)
Definition contractions : list str :=
  nodup (list_eq_dec N.eq_dec) (flat_map (fun r => match r with RContraction chars => [chars] | _ => [] end) rules).
(** nocontract.rs:57-71, lettersign.rs:68-83. *)
Definition contraction_args (dots : str) (r : rule) (chars : str) : ins_args :=
  mk_ins chars dots word_start word_end PDefault [] Main (Some r).
Definition contraction_trie (order : list str -> list str) (dots : str) (r : rule) : tres node :=
  trie_insert_all compat (x_chars x) Forward node_empty (map (contraction_args dots r) (order contractions)).
Definition last_rule (f : rule -> option str) : option (str * rule) :=
  last_some (fun r => match f r with Some dots => Some (dots, r) | None => None end).
(** nocontract.rs:46-87. *)
Definition build_nocont_ind (order : list str -> list str) : tres (option nocont_ind) :=
  match last_rule (fun r => match r with RNocontractsign dots _ => Some dots | _ => None end) with
  | Some (dots, r) =>
      if is_empty contractions then TOk None
      else tdo n <- contraction_trie order dots r; TOk (Some (mk_nocont_ind n (sign dots r)))
  | None => TOk None
  end.
(** lettersign.rs:56-132; the characters of all rules. *)
Definition build_letter_ind (order : list str -> list str) : tres (option letter_ind) :=
  match last_rule (fun r => match r with RLetsign dots => Some dots | _ => None end) with
  | Some (dots, r) =>
      tdo n <- contraction_trie order dots r;
      TOk (Some (mk_letter_ind n (sign dots r)
        (flat_map (cls_chars (x_chars x)) [CLetter; CUppercase; CLowercase]) (cls_chars (x_chars x) CSpace)
        (flat_map (fun r => match r with RNoletsign cs => cs | _ => [] end) rules)
        (flat_map (fun r => match r with RNoletsignafter cs => cs | _ => [] end) rules)
        (flat_map (fun r => match r with RNoletsignbefore cs => cs | _ => [] end) rules)))
  | None => TOk None
  end.
(** [*number as usize] on a 64-bit machine. *)
Definition as_usize (n : Z) : N := Z.to_N (n mod 2 ^ 64)%Z.
(** uppercase.rs:43-119, primary.rs:1320-1329. *)
Definition build_caps_ind : option caps_ind :=
  let get f := last_some (fun r => match f r with Some dots => Some (sign dots r) | None => None end) in
  let u := mk_caps_ind (cls_chars (x_chars x) CUppercase)
    (match last_some (fun r => match r with RCapsmodechars cs => Some cs | _ => None end) with Some cs => cs | None => [] end)
    (cls_chars (x_chars x) CLetter) (x_chars x)
    (get (fun r => match r with RCapsletter dots _ => Some dots | _ => None end))
    (get (fun r => match r with RBegcapsword dots _ => Some dots | _ => None end))
    (get (fun r => match r with REndcapsword dots _ => Some dots | _ => None end))
    (get (fun r => match r with RBegcaps dots => Some dots | _ => None end))
    (get (fun r => match r with REndcaps dots => Some dots | _ => None end))
    (get (fun r => match r with RBegcapsphrase dots => Some dots | _ => None end))
    (get (fun r => match r with REndcapsphrase dots _ => Some dots | _ => None end))
    (match last_some (fun r => match r with
                               | REndcapsphrase _ PosBefore => Some true
                               | REndcapsphrase _ PosAfter => Some false
                               | _ => None end) with Some b => b | None => true end)
    (match last_some (fun r => match r with RLencapsphrase n => Some (as_usize n) | _ => None end) with
     | Some n => n | None => 2%N end) in
  if caps_indicating u then Some u else None.

(** emphasis.rs:329-423, primary.rs:682-737: the class a rule is about; an opcode makes
    the class if it is not there yet. *)
Definition emph_name (r : rule) : option str :=
  match r with
  | REmphclass name | REmphletter name _ | RBegemphword name _ | REndemphword name _
  | RBegemphphrase name _ | REndemphphrase name _ _ | RLenemphphrase name _ | RBegemph name _ _
  | REndemph name _ _ | REmphmodechars name _ | RNoemphchars name _ => Some name
  | _ => None
  end.
Definition emph_names : list str :=
  fold_left (fun l r => match emph_name r with
                        | Some n => if existsb (str_eqb n) l then l else l ++ [n]
                        | None => l
                        end) rules [].
Definition build_emph_class (name : str) : emph_class :=
  let own r := match emph_name r with Some n => str_eqb n name | None => false end in
  let get {A} (f : rule -> option A) : option A := last_some (fun r => if own r then f r else None) in
  let sgn f := get (fun r => match f r with Some dots => Some (sign dots r) | None => None end) in
  mk_emph_class name
    (sgn (fun r => match r with REmphletter _ dots => Some dots | _ => None end))
    (sgn (fun r => match r with RBegemph _ dots _ => Some dots | _ => None end))
    (sgn (fun r => match r with REndemph _ dots _ => Some dots | _ => None end))
    (sgn (fun r => match r with RBegemphword _ dots => Some dots | _ => None end))
    (sgn (fun r => match r with REndemphword _ dots => Some dots | _ => None end))
    (sgn (fun r => match r with RBegemphphrase _ dots => Some dots | _ => None end))
    (sgn (fun r => match r with REndemphphrase _ dots _ => Some dots | _ => None end))
    (match get (fun r => match r with
                         | REndemphphrase _ _ PosBefore => Some true
                         | REndemphphrase _ _ PosAfter => Some false
                         | _ => None end) with Some b => b | None => true end)
    (match get (fun r => match r with RLenemphphrase _ n => Some (as_usize n) | _ => None end) with
     | Some n => n | None => 4%N end)
    (match get (fun r => match r with REmphmodechars _ cs => Some cs | _ => None end) with Some cs => cs | None => [] end)
    (match get (fun r => match r with RNoemphchars _ cs => Some cs | _ => None end) with Some cs => cs | None => [] end)
    (x_chars x).
Definition build_emph : list emph_class :=
  filter emph_indicating (map build_emph_class emph_names).

(** primary.rs:315-335. *)
Definition build_indicators (order1 order2 : list str -> list str) : tres indicators :=
  tdo li <- build_letter_ind order1;
  tdo nc <- build_nocont_ind order2;
  TOk (mk_indicators build_comp_ind build_emph build_numeric_ind li build_caps_ind nc).
End Build.

(** ** The main pass *)
(** primary.rs:113-144 [PrimaryTable]. *)
Record main_table := mk_main_table {
  mt_rules : ptable; mt_indicators : indicators; mt_constrainers : constrainers; mt_scanner : option scanner }.
Section Pass.
(** The library functions and the orders of the hash maps. *)
Variable is_alphabetic : char -> bool.
Variable lower upper : char -> list char.
Variable long_sort : list event -> res (list event).
Variable compat : bool.
Variable read_dictionary : str -> tres hyph.
Variable order1 order2 : list str -> list str.

(** primary.rs:411-1390 [compile]. *)
Definition main_compile (d : direction) (x : context) (rules : list rule) : tres main_table :=
  tdo p <- primary_compile compat read_dictionary d x rules;
  tdo i <- build_indicators compat x rules order1 order2;
  TOk (mk_main_table p i (build_constrainers is_alphabetic read_dictionary d x rules) (build_scanner x rules)).
(** primary.rs:1495-1502: the spans with those of the scanner. *)
Definition enriched (m : main_table) (input : str) (spans : list span) : res (list span) :=
  match mt_scanner m with Some k => enrich k input spans | None => Ok spans end.
(** primary.rs:1481-1690 [trace]. *)
Definition main_trace (m : main_table) (input : str) (spans : list span) : res (list resolved) :=
  do sp <- enriched m input spans;
  do ind <- indications_of lower long_sort (mt_indicators m) input sp;
  do lim <- limits_of (mt_constrainers m) input sp;
  primary_run lower upper (mt_rules m) ind lim input.
(** primary.rs:1405-1417 [translate], [translate_with_options]. *)
Definition main_translate (m : main_table) (input : str) (spans : list span) : res str :=
  do t <- main_trace m input spans; Ok (outputs t).
End Pass.
