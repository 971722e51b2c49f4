(** Model of src/hyphenation.rs. *)
From Verif Require Import Base.

(** hyphenation.rs:13-25 [HyphenationTable].  The hash map is an association list with
    string keys, newest first. *)
Record hyph := mk_hyph { h_patterns : list (str * list nat); h_left : nat; h_right : nat }.

Fixpoint sassoc {A} (k : str) (l : list (str * A)) : option A :=
  match l with
  | [] => None
  | (k', v) :: r => if str_eqb k k' then Some v else sassoc k r
  end.

(** [char::to_digit(10)]: ASCII digits only. *)
Definition to_digit10 (c : char) : option nat :=
  if (N.leb 48 c && N.leb c 57)%bool then Some (N.to_nat (c - 48)) else None.

(** [*tally.last_mut().unwrap() = d]; the vector is never empty. *)
Fixpoint set_last (l : list nat) (d : nat) : list nat :=
  match l with
  | [] => []
  | [_] => [d]
  | x :: r => x :: set_last r d
  end.

(** hyphenation.rs:168-190 [parse_pattern]; [None] is the error [PatternWithoutValue]. *)
Definition pattern_step (acc : str * list nat) (ch : char) : str * list nat :=
  let '(letters, tally) := acc in
  match to_digit10 ch with
  | Some d => (letters, set_last tally d)
  | None => (letters ++ [ch], tally ++ [0])
  end.
Definition parse_pattern (pattern : str) : option (str * list nat) :=
  let '(letters, tally) := fold_left pattern_step pattern ([], [0]) in
  if forallb (Nat.eqb 0) tally then None else Some (letters, tally).

(** hyphenation.rs:30-42 errors, with the line numbers (1-based) they carry. *)
Inductive hyph_error := EHyphenMin (line : nat) | ENoValue (line : nat) | EEncoding.

Section Parse.
(** [str::trim], [str::eq_ignore_ascii_case] against the two encoding names and
    [str::trim().parse::<usize>()] are library functions, left abstract. *)
Variable trim : str -> str.
Variable is_utf8_name is_latin1_name : str -> bool.
Variable parse_usize : str -> option nat.

Fixpoint strip_prefix (p s : str) : option str :=
  match p, s with
  | [], _ => Some s
  | a :: p', b :: s' => if N.eqb a b then strip_prefix p' s' else None
  | _, [] => None
  end.
Definition LEFTHYPHENMIN : str := [76;69;70;84;72;89;80;72;69;78;77;73;78]%N.
Definition RIGHTHYPHENMIN : str := [82;73;71;72;84;72;89;80;72;69;78;77;73;78]%N.

(** hyphenation.rs:57-87, one line of the file.  [inl] is an error. *)
Definition parse_line (lineno : nat) (raw : str) (t : hyph) : hyph_error + hyph :=
  let line := trim raw in
  match line with
  | [] => inr t
  | c0 :: _ =>
    if (Nat.eqb lineno 0 && is_utf8_name line)%bool then inr t
    else if (Nat.eqb lineno 0 && is_latin1_name line)%bool then inl EEncoding
    else if (N.eqb c0 35 || N.eqb c0 37)%bool then inr t
    else match strip_prefix LEFTHYPHENMIN line with
    | Some rest =>
        match parse_usize rest with
        | Some n => inr (mk_hyph (h_patterns t) n (h_right t))
        | None => inl (EHyphenMin (lineno + 1))
        end
    | None =>
      match strip_prefix RIGHTHYPHENMIN line with
      | Some rest =>
          match parse_usize rest with
          | Some n => inr (mk_hyph (h_patterns t) (h_left t) n)
          | None => inl (EHyphenMin (lineno + 1))
          end
      | None =>
          match parse_pattern line with
          | Some (letters, tally) => inr (mk_hyph ((letters, tally) :: h_patterns t) (h_left t) (h_right t))
          | None => inl (ENoValue (lineno + 1))
          end
      end
    end
  end.

(** hyphenation.rs:50-90 [parse] on the list of lines ([str::lines]); the first error
    is returned. *)
Fixpoint parse_lines (lineno : nat) (ls : list str) (t : hyph) : hyph_error + hyph :=
  match ls with
  | [] => inr t
  | l :: r => match parse_line lineno l t with
              | inl e => inl e
              | inr t' => parse_lines (S lineno) r t'
              end
  end.
Definition hyph_parse (ls : list str) : hyph_error + hyph := parse_lines 0 ls (mk_hyph [] 1 1).
End Parse.

(** hyphenation.rs:126-131: [if v > scores[gap] { scores[gap] = v }] for all entries of a tally;
    [None] is the out-of-range panic. *)
Fixpoint raise_at (scores : list nat) (gap v : nat) : option (list nat) :=
  match scores, gap with
  | [], _ => None
  | s :: r, 0 => Some ((if Nat.ltb s v then v else s) :: r)
  | s :: r, S g => option_map (cons s) (raise_at r g v)
  end.
Fixpoint add_tally (scores : list nat) (gap : nat) (tally : list nat) : option (list nat) :=
  match tally with
  | [] => Some scores
  | v :: r => match raise_at scores gap v with
              | Some sc => add_tally sc (S gap) r
              | None => None
              end
  end.

(** [&wrapped[bounds[start]..bounds[end]]]: [bounds] holds exactly the byte offsets of the
    character boundaries, so the slice is the character substring and cannot
    panic. *)
Definition substring (s : str) (st en : nat) : str := firstn (en - st) (skipn st s).

(** hyphenation.rs:123-134, the two loops: all pairs start < end <= wrapped_chars. *)
Definition spans (n : nat) : list (nat * nat) :=
  flat_map (fun st => map (fun k => (st, st + 1 + k)) (seq 0 (n - st))) (seq 0 n).
Fixpoint score_loop (pats : list (str * list nat)) (w : str) (sp : list (nat * nat)) (scores : list nat)
  : option (list nat) :=
  match sp with
  | [] => Some scores
  | (st, en) :: r =>
      match sassoc (substring w st en) pats with
      | Some tally => match add_tally scores st tally with
                      | Some sc => score_loop pats w r sc
                      | None => None
                      end
      | None => score_loop pats w r scores
      end
  end.

(** hyphenation.rs:92-150 [break_points].  [usize] subtraction [char_count - right_min] cannot
    underflow because of the test on line 102. *)
Definition break_points (t : hyph) (word : str) : res (list bool) :=
  let n := length word in
  if Nat.ltb n 2 then Ok []
  else if Nat.ltb n (h_left t + h_right t) then Ok (repeat false (n - 1))
  else
    let w := [46%N] ++ word ++ [46%N] in
    match score_loop (h_patterns t) w (spans (length w)) (repeat 0 (length w + 1)) with
    | None => Panic
    | Some scores =>
        Ok (map (fun i => Nat.odd (nth (i + 2) scores 0) && Nat.leb (h_left t) (i + 1)
                          && Nat.leb (i + 1) (n - h_right t))%bool (seq 0 (n - 1)))
    end.
