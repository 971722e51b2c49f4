(** Model of src/translator/position_constraints.rs (which rules are allowed where), of its
    builders as they are fed by src/translator/table/primary.rs:411-1390, of
    src/emphasis.rs and of [CompbrlScanner] (primary.rs:36-87).

    A [Vec<Constraints>] is filled by [constraints[pos].insert(X)] only; it is represented
    by the positions marked with each constraint.  [HashSet<char>] is a list (in [letter_cells] and
    [digit_cells] the sorted one). *)
From Coq Require Import Strings.String.
From Coq Require Import List.
From Verif Require Import Base RuleModel TranslationModel TableModel RegexpModel PatternModel TrieModel
  HyphenationModel LoopModel CompileModel.

(** emphasis.rs:5-25 [EmphasisSpan]. *)
Record span := mk_span { sp_class : str; sp_start : nat; sp_end : nat }.
Definition span_eqb (a b : span) : bool :=
  (str_eqb (sp_class a) (sp_class b) && Nat.eqb (sp_start a) (sp_start b) &&
   Nat.eqb (sp_end a) (sp_end b))%bool.
Definition computer_braille : str := lit "computer_braille".

Definition is_empty {A} (l : list A) : bool := match l with [] => true | _ => false end.

(** ** NumericConstrainer, position_constraints.rs:131-181 *)
Record numeric_chars := mk_numeric_chars { nu_digits : list char; nu_extra : list char; nu_mid : list char }.
(** 140-180 [compute]: one flag per character. *)
Fixpoint numeric_marks (u : numeric_chars) (in_numeric : bool) (s : str) : list bool :=
  match s with
  | [] => []
  | c :: r =>
      if mem c (nu_digits u) then true :: numeric_marks u true r
      else if (in_numeric && mem c (nu_extra u))%bool then true :: numeric_marks u true r
      else if (in_numeric && is_empty (nu_extra u) && mem c (nu_mid u) &&
               match r with c' :: _ => mem c' (nu_digits u) | [] => false end)%bool
      then true :: numeric_marks u true r
      else false :: numeric_marks u false r
  end.

(** ** HyphenationConstrainer, 183-223 *)
(** 214-222 [mark_word]; [constraints[start + i]] is out of range beyond the text. *)
Fixpoint mark_breaks (n start : nat) (bs : list bool) : res (list nat) :=
  match bs with
  | [] => Ok []
  | b :: r => do l <- mark_breaks n (S start) r;
              if b then if Nat.ltb start n then Ok (start :: l) else Panic else Ok l
  end.
Definition mark_word (h : hyph) (chars : str) (start stop : nat) : res (list nat) :=
  do bs <- break_points h (firstn (stop - start) (skipn start chars));
  mark_breaks (length chars) start bs.
(** 194-210 [compute]. *)
Fixpoint hyphen_loop (h : hyph) (letters : list char) (chars s : str) (pos : nat) (word_start : option nat)
  : res (list nat) :=
  match s with
  | [] => match word_start with
          | Some st => mark_word h chars st (length chars)
          | None => Ok []
          end
  | c :: r =>
      if mem c letters
      then hyphen_loop h letters chars r (S pos) (match word_start with Some st => Some st | None => Some pos end)
      else match word_start with
           | Some st => do a <- mark_word h chars st pos;
                        do b <- hyphen_loop h letters chars r (S pos) None; Ok (a ++ b)
           | None => hyphen_loop h letters chars r (S pos) None
           end
  end.
Definition hyphen_marks (h : hyph) (letters : list char) (chars : str) : res (list nat) :=
  hyphen_loop h letters chars chars 0 None.

(** ** PunctuationConstrainer, 225-285 *)
Record punct_chars := mk_punct_chars { pc_letters : list char; pc_word : list char; pc_space : list char }.
(** 252-260, 265-273: the scan for a letter or digit. *)
Fixpoint scan (u : punct_chars) (s : str) : bool :=
  match s with
  | [] => false
  | c :: r => if mem c (pc_word u) then true else if mem c (pc_space u) then false else scan u r
  end.
Definition char_before (chars : str) (pos : nat) : option char :=
  match pos with 0 => None | S q => nth_error chars q end.
Definition not_in (l : list char) (o : option char) : bool :=
  match o with Some c => negb (mem c l) | None => true end.
Definition prepunc_mark (u : punct_chars) (chars : str) (pos : nat) : bool :=
  (not_in (pc_letters u) (char_before chars pos) && scan u (skipn (S pos) chars))%bool.
Definition postpunc_mark (u : punct_chars) (chars : str) (pos : nat) : bool :=
  (not_in (pc_letters u) (nth_error chars (S pos)) && scan u (rev (firstn pos chars)))%bool.

(** ** ComputerBrailleConstrainer, 287-304 *)
Definition comp_mark (spans : list span) (n pos : nat) : bool :=
  existsb (fun s => (str_eqb (sp_class s) computer_braille && Nat.leb (sp_start s) pos &&
                     Nat.ltb pos (Nat.min (sp_end s) n))%bool) spans.

(** 306-310 [matches_at]. *)
Fixpoint starts_with (s p : str) : bool :=
  match p, s with
  | [], _ => true
  | x :: p', c :: s' => (N.eqb x c && starts_with s' p')%bool
  | _, [] => false
  end.
Definition matches_opt (s : str) (dots : option str) : bool :=
  match dots with Some d => starts_with s d | None => false end.
Definition opt_len (dots : option str) : nat := match dots with Some d => length d | None => 0 end.

(** ** BackwardCapsConstrainer, 312-371 *)
Record caps_cells := mk_caps_cells {
  bc_letter : option str; bc_begword : option str; bc_endword : option str; bc_cells : list char }.
(** 343-357: the letters of a word; gives the marked positions and the position after. *)
Fixpoint caps_word (u : caps_cells) (chars : str) (fuel pos : nat) : res (list nat * nat) :=
  match fuel with
  | 0 => OutOfFuel
  | S f =>
      let s := skipn pos chars in
      if matches_opt s (bc_endword u) then Ok ([], pos + opt_len (bc_endword u))
      else match s with
           | c :: _ => if mem c (bc_cells u)
                       then do r <- caps_word u chars f (S pos); Ok (pos :: fst r, snd r)
                       else Ok ([], pos)
           | [] => Ok ([], pos)
           end
  end.
(** 333-370: upper-case positions and title-case positions.  The loop does not end if an
    indicator has no dots: out of fuel. *)
Fixpoint caps_loop (u : caps_cells) (chars : str) (fuel pos : nat) : res (list nat * list nat) :=
  match fuel with
  | 0 => OutOfFuel
  | S f =>
      if Nat.leb (length chars) pos then Ok ([], [])
      else
        let s := skipn pos chars in
        if matches_opt s (bc_begword u) then
          do w <- caps_word u chars (S (length chars)) (pos + opt_len (bc_begword u));
          do r <- caps_loop u chars f (snd w);
          Ok (fst w ++ fst r, snd r)
        else if matches_opt s (bc_letter u) then
          let q := pos + opt_len (bc_letter u) in
          do r <- caps_loop u chars f q;
          Ok (fst r, if Nat.ltb q (length chars) then q :: snd r else snd r)
        else caps_loop u chars f (S pos)
  end.
Definition caps_marks (u : caps_cells) (chars : str) : res (list nat * list nat) :=
  caps_loop u chars (S (length chars)) 0.

(** ** BackwardNumericConstrainer, 373-424 *)
Record number_cells := mk_number_cells {
  bn_sign : option str; bn_end : option str; bn_digits : list char; bn_letters : list char }.
(** 393-423. *)
Fixpoint number_loop (u : number_cells) (chars : str) (fuel pos : nat) (in_number : bool) : res (list nat) :=
  match fuel with
  | 0 => OutOfFuel
  | S f =>
      match skipn pos chars with
      | [] => Ok []
      | (c :: _) as s =>
          if (matches_opt s (bn_sign u) && not_in (bn_letters u) (char_before chars pos))%bool
          then number_loop u chars f (pos + opt_len (bn_sign u)) true
          else if in_number then
            if matches_opt s (bn_end u) then number_loop u chars f (pos + opt_len (bn_end u)) false
            else if mem c (bn_digits u)
                 then do r <- number_loop u chars f (S pos) true; Ok (pos :: r)
                 else number_loop u chars f (S pos) false
          else number_loop u chars f (S pos) false
      end
  end.
Definition number_marks (u : number_cells) (chars : str) : res (list nat) :=
  number_loop u chars (S (length chars)) 0 false.

(** ** Constrainers, 426-470 *)
Record constrainers := mk_constrainers {
  kc_numeric : option numeric_chars; kc_caps : option caps_cells; kc_number : option number_cells;
  kc_hyphen : option (hyph * list char); kc_punct : option punct_chars }.
Definition optional {A B} (o : option A) (f : A -> res B) (dflt : B) : res B :=
  match o with Some a => f a | None => Ok dflt end.
Definition mem_nat (n : nat) (l : list nat) : bool := existsb (Nat.eqb n) l.
(** 456-469 [precompute]: the pointwise union. *)
Definition limits_of (k : constrainers) (chars : str) (spans : list span) : res pos_flags :=
  let numeric := match kc_numeric k with Some u => numeric_marks u false chars | None => [] end in
  do caps <- optional (kc_caps k) (fun u => caps_marks u chars) ([], []);
  do number <- optional (kc_number k) (fun u => number_marks u chars) [];
  do breaks <- optional (kc_hyphen k) (fun u => hyphen_marks (fst u) (snd u) chars) [];
  let pre pos := match kc_punct k with Some u => prepunc_mark u chars pos | None => false end in
  let post pos := match kc_punct k with Some u => postpunc_mark u chars pos | None => false end in
  Ok (map (fun pos => mk_flags (nth pos numeric false) (comp_mark spans (length chars) pos)
                               (mem_nat pos (fst caps)) (mem_nat pos (snd caps)) (mem_nat pos number)
                               (mem_nat pos breaks) (pre pos) (post pos))
          (seq 0 (length chars))).

(** ** The builders *)
Section Build.
Variable is_alphabetic : char -> bool.
Variable read_dictionary : str -> tres hyph.
Variable d : direction.
Variable x : context.
Variable rules : list rule.

Definition last_some {A} (f : rule -> option A) : option A :=
  fold_left (fun best r => match f r with Some a => Some a | None => best end) rules None.
(** primary.rs:605-606, position_constraints.rs:488-490 [numericmodechars]: the last rule. *)
Definition extra_numeric : list char :=
  match last_some (fun r => match r with RNumericmodechars chars => Some chars | _ => None end) with
  | Some l => l | None => []
  end.
(** primary.rs:488-490, 1197-1198 and position_constraints.rs:492-494 [midnum]: all of them,
    and the decimal points. *)
Definition mid_numeric : list char :=
  flat_map (fun r => match r with RDecpoint c _ => [c] | _ => [] end) rules ++
  flat_map (fun r => match r with RMidnum chars _ _ => chars | _ => [] end) rules.
Definition digits : list char := cls_chars (x_chars x) CLitdigit.
(** position_constraints.rs:496-508 [build]. *)
Definition build_numeric : option numeric_chars :=
  if is_empty digits then None else Some (mk_numeric_chars digits extra_numeric mid_numeric).

(** primary.rs:612-658 and 256-281: backward, the dots of the last rule whose dots are not
    those of a letter. *)
Definition backward_dots (f : rule -> option str) : option str :=
  if is_backward d
  then last_some (fun r => match f r with
                           | Some dots => if is_letter_dots d rules dots then None else Some dots
                           | None => None
                           end)
  else None.
(** primary.rs:1357-1375. *)
Definition letter_cells : list char :=
  if is_backward d
  then sort_dedup (cls_chars (x_dots x) CLetter ++
       flat_map (fun r => match r with
                          | RAlways chars dots _ _ => if forallb is_alphabetic chars then braille_to_string dots else []
                          | _ => []
                          end) rules)
  else [].
(** primary.rs:1376-1388. *)
Definition digit_cells : list char :=
  if is_backward d then sort_dedup (cls_chars (x_dots x) CDigit ++ cls_chars (x_dots x) CLitdigit) else [].
(** position_constraints.rs:541-552. *)
Definition build_caps : option caps_cells :=
  let cl := backward_dots (fun r => match r with RCapsletter dots _ => Some dots | _ => None end) in
  let bw := backward_dots (fun r => match r with RBegcapsword dots _ => Some dots | _ => None end) in
  let ew := backward_dots (fun r => match r with REndcapsword dots _ => Some dots | _ => None end) in
  match cl, bw with
  | None, None => None
  | _, _ => Some (mk_caps_cells cl bw ew letter_cells)
  end.
(** position_constraints.rs:585-596. *)
Definition build_number : option number_cells :=
  let ns := backward_dots (fun r => match r with RNumsign dots => Some dots | _ => None end) in
  let ne := backward_dots (fun r => match r with RNonumsign dots _ => Some dots | _ => None end) in
  match ns with
  | None => None
  | Some _ => Some (mk_number_cells ns ne digit_cells letter_cells)
  end.
(** primary.rs:1301-1306, 362-365, 1330-1334: the last dictionary, forward only.  (A
    dictionary that cannot be read makes [primary_compile] fail.) *)
Definition build_hyphen : option (hyph * list char) :=
  if is_backward d then None
  else match last_some (fun r => match r with
                                 | RIncludeHyphenation path =>
                                     match read_dictionary path with TOk h => Some h | _ => None end
                                 | _ => None
                                 end) with
       | Some h => Some (h, cls_chars (x_chars x) CLetter)
       | None => None
       end.
(** primary.rs:1227-1270, 366-371, 1335-1356: forward, if a prepunc or postpunc rule for
    punctuation is there. *)
Definition has_punct : bool :=
  existsb (fun r => match r with
                    | RPrepunc chars _ _ | RPostpunc chars _ _ => forallb (cls_has (x_chars x) CPunctuation) chars
                    | _ => false
                    end) rules.
Definition build_punct : option punct_chars :=
  if (negb (is_backward d) && has_punct)%bool
  then Some (mk_punct_chars (cls_chars (x_chars x) CLetter)
                            (cls_chars (x_chars x) CLetter ++ cls_chars (x_chars x) CDigit)
                            (cls_chars (x_chars x) CSpace))
  else None.
(** primary.rs:347-374. *)
Definition build_constrainers : constrainers :=
  mk_constrainers build_numeric build_caps build_number build_hyphen build_punct.
End Build.

(** ** CompbrlScanner, primary.rs:36-87 *)
Record scanner := mk_scanner { sc_triggers : list str; sc_classes : classes }.
Section Scan.
Variable k : scanner.
Variable chars : str.
Definition is_space_at (pos : nat) : bool :=
  match nth_error chars pos with Some c => cls_is_whitespace (sc_classes k) c | None => false end.
(** 64-68. *)
Fixpoint word_start_from (pos : nat) : nat :=
  match pos with
  | 0 => 0
  | S q => if is_space_at q then pos else word_start_from q
  end.
(** 69-73: from [pos] over the remaining characters. *)
Fixpoint word_end_from (s : str) (pos : nat) : nat :=
  match s with
  | [] => pos
  | c :: r => if cls_is_whitespace (sc_classes k) c then pos else word_end_from r (S pos)
  end.
(** 53-83.  When a trigger matches at whitespace the word ends where it starts and the loop
    makes no progress: out of fuel. *)
Fixpoint scan_loop (fuel pos : nat) (spans : list span) : res (list span) :=
  match fuel with
  | 0 => OutOfFuel
  | S f =>
      if Nat.leb (length chars) pos then Ok spans
      else if existsb (starts_with (skipn pos chars)) (sc_triggers k)
      then
        let e := word_end_from (skipn pos chars) pos in
        let sp := mk_span computer_braille (word_start_from pos) e in
        scan_loop f e (if existsb (span_eqb sp) spans then spans else spans ++ [sp])
      else scan_loop f (S pos) spans
  end.
Definition enrich (spans : list span) : res (list span) := scan_loop (S (length chars)) 0 spans.
End Scan.
(** primary.rs:375-379, 867-869: built if there is a compbrl rule. *)
Definition compbrl_triggers (rules : list rule) : list str :=
  flat_map (fun r => match r with RCompbrl chars _ => [chars] | _ => [] end) rules.
Definition build_scanner (x : context) (rules : list rule) : option scanner :=
  match compbrl_triggers rules with
  | [] => None
  | ts => Some (mk_scanner ts (x_chars x))
  end.
