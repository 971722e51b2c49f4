(** Model of the two translation loops: src/translator/table/multipass.rs (correct,
    pass2, pass3, pass4) and src/translator/table/primary.rs (the main pass).

    A loop is a step function on an explicit state and an iteration with fuel; the entry
    points [multipass_trace] and [primary_run] supply fuel that C02 proves sufficient.
    The [chars] iterator of the code is the list of remaining characters. *)
From Verif Require Import Base RuleModel TranslationModel TableModel RegexpModel PatternModel
  TrieModel BrailleModel.

(** [Iterator::max_by_key(|t| t.weight())]: the last one of maximal weight. *)
Definition max_weight (l : list resolved) : option resolved :=
  fold_left (fun best t => match best with
                           | None => Some t
                           | Some b => if Nat.leb (r_weight b) (r_weight t) then Some t else Some b
                           end) l None.

(** multipass.rs:87-98 and primary.rs:1392-1403 [update_offsets]. *)
Definition update_offsets (l : list resolved) (dec : nat) : list resolved :=
  map (fun t => decrement_offset t dec) (filter (fun t => Nat.leb dec (r_offset t)) l).

(** [partition(|t| t.offset() == 0)]. *)
Definition at_zero (t : resolved) : bool := Nat.eqb (r_offset t) 0.
Definition now (l : list resolved) : list resolved := filter at_zero l.
Definition later (l : list resolved) : list resolved := filter (fun t => negb (at_zero t)) l.

(** [seen.contains(&TranslationSubset::from(t))], translation.rs:195-213. *)
Definition subset_eqb (a b : subset) : bool :=
  let '(i1, o1, l1, w1) := a in
  let '(i2, o2, l2, w2) := b in
  (str_eqb i1 i2 && str_eqb o1 o2 && Nat.eqb l1 l2 && Nat.eqb w1 w2)%bool.
Definition was_seen (seen : list subset) (t : resolved) : bool :=
  existsb (subset_eqb (subset_of t)) seen.
Definition unseen (seen : list subset) (l : list resolved) : list resolved :=
  filter (fun t => negb (was_seen seen t)) l.

(** [s.chars().last()]. *)
Definition last_char (s : str) : option char := last (map Some s) None.

(** Total output of a trace ([iter().map(|t| t.output()).collect()]). *)
Definition outputs (l : list resolved) : str := flat_map r_output l.

(** ** MultipassTable *)

(** multipass/action.rs:33-101 [ConsumesInput]. *)
Definition consumes_input (l : list action_instr) : bool :=
  existsb (fun a => match a with ActString _ | ActDots _ => true | _ => false end) l.
(** multipass.rs:42-69 [compile]. *)
Fixpoint multipass_compile (rules : list rule) (d : direction) (st : stage) (x : context) : tres (list cpat) :=
  match rules with
  | [] => TOk []
  | r :: rest =>
      match r with
      | RCorrect test action _ | RPass2 test action _ | RPass3 test action _ | RPass4 test action _ =>
          if (match d with Backward => true | Forward => false end && negb (consumes_input action))%bool
          then multipass_compile rest d st x
          else tdo p <- context_insert x test action r st;
               tdo ps <- multipass_compile rest d st x;
               TOk (p :: ps)
      | _ => multipass_compile rest d st x
      end
  end.

Record mstate := mk_mstate {
  m_rest : str; m_delayed : list resolved; m_env : env; m_seen : list subset;
  m_out : list resolved }.
Inductive mstep := MGo (s : mstate) | MStop (out : list resolved).

Section Multipass.
Variable lower : char -> list char.
Variable patterns : list cpat.
Variable st : stage.
Variable input : str.

(** multipass.rs:116-176, one iteration of the loop.  (The variable [prev] is only passed
    to a function that ignores it and is left out.) *)
Definition multipass_step (s : mstate) : res mstep :=
  let at_start := Nat.eqb (blen (m_rest s)) (blen input) in
  do found <- cpats_find lower patterns (m_env s) at_start (m_rest s);
  let delayed := m_delayed s ++ later found in
  let candidates := now found ++ now delayed in
  let delayed := later delayed in
  match max_weight (unseen (m_seen s) candidates) with
  | Some t =>
      do e <- env_apply_all (m_env s) (r_effects t);
      Ok (MGo (if Nat.eqb (r_length t) 0
               then mk_mstate (m_rest s) (update_offsets delayed (r_length t)) e
                              (subset_of t :: m_seen s) (m_out s ++ [t])
               else mk_mstate (skipn (r_length t) (m_rest s)) (update_offsets delayed (r_length t)) e
                              [] (m_out s ++ [t])))
  | None =>
      match m_rest s with
      | c :: r => Ok (MGo (mk_mstate r (update_offsets delayed 1) (m_env s) (m_seen s)
                                     (m_out s ++ [resolved_new [c] [c] 1 st None])))
      | [] => Ok (MStop (m_out s))
      end
  end.
Fixpoint multipass_loop (fuel : nat) (s : mstate) : res (list resolved) :=
  match fuel with
  | 0 => OutOfFuel
  | S f => do r <- multipass_step s;
           match r with
           | MGo s' => multipass_loop f s'
           | MStop out => Ok out
           end
  end.
Definition multipass_init : mstate := mk_mstate input [] env_new [] [].
(** Enough iterations: see C02. *)
Definition multipass_fuel : nat :=
  S (S (length input) * S (length patterns * S (length input))).
(** multipass.rs:107-180 [trace]. *)
Definition multipass_trace : res (list resolved) := multipass_loop multipass_fuel multipass_init.
(** multipass.rs:71-73 [translate]. *)
Definition multipass_translate : res str := do t <- multipass_trace; Ok (outputs t).
End Multipass.

(** ** PrimaryTable *)

(** position_constraints.rs:18-72 [Constraint]; a [Constraints] is an [EnumSet]. *)
Record flags := mk_flags {
  k_dont_contract : bool; k_comp6 : bool; k_uppercase : bool; k_titlecase : bool;
  k_digit : bool; k_break : bool; k_prepunc : bool; k_postpunc : bool }.
(** position_constraints.rs:77-129 [PositionConstraints] and its accessors. *)
Definition pos_flags := list flags.
Definition flag_at (f : flags -> bool) (l : pos_flags) (pos : nat) : bool :=
  match nth_error l pos with Some k => f k | None => false end.

(** primary.rs:113-144 [PrimaryTable] without the indicators, constrainers and the compbrl
    scanner, which are used before the loop only. *)
Record ptable := mk_ptable {
  p_undefined : option str;
  p_fallback : chardefs;
  p_chars : list (char * resolved);
  p_trie : node; p_comp6 : node; p_nocross : node;
  p_match : list cpat; p_context : list cpat;
  p_dir : direction;
  p_digits : list (char * resolved) }.

(** [char::escape_unicode] without the braces and with [x] for [u]: lower-case
    hexadecimal digits without leading zeros. *)
Definition hex_digit (d : N) : char := (if N.ltb d 10 then 48 + d else 87 + d)%N.
Fixpoint hex_loop (fuel : nat) (v : N) (acc : str) : str :=
  match fuel with
  | 0 => acc
  | S f => let acc' := hex_digit (v mod 16) :: acc in
           if N.ltb v 16 then acc' else hex_loop f (v / 16) acc'
  end.
(** A Unicode scalar value has at most six hexadecimal digits. *)
Definition escape_char (c : char) : str := 92%N :: 120%N :: hex_loop 6 c [].

(** primary.rs:1692-1707 [handle_undefined_char]. *)
Fixpoint spell (defs : chardefs) (s : str) : res str :=
  match s with
  | [] => Ok []
  | c :: r =>
      do a <- match defs_get defs c with
              | Some t => Ok t
              | None => do f <- fallback c; Ok [f]
              end;
      do b <- spell defs r; Ok (a ++ b)
  end.
Definition handle_undefined (defs : chardefs) (c : char) : res str := spell defs (escape_char c).

Record pstate := mk_pstate {
  s_rest : str; s_delayed : list resolved; s_env : env; s_prev : option char;
  s_seen : list subset; s_pos : nat; s_last : option nat; s_out : list resolved }.
Inductive pstep := PGo (s : pstate) | PStop (out : list resolved).

Section Primary.
Variable lower upper : char -> list char.
Variable p : ptable.
Variable indications : list (list resolved).
Variable limits : pos_flags.
Variable input : str.

(** primary.rs:1430-1449 [nocross_candidates]. *)
Definition crosses_break (pos : nat) (t : resolved) : bool :=
  existsb (flag_at k_break limits) (seq pos (r_length t - 1)).
Definition nocross_candidates (rest : str) (prev : option char) (pos : nat) : list resolved :=
  filter (fun t => negb (crosses_break pos t)) (find_translations lower (p_nocross p) rest prev).

(** primary.rs:1545-1554: the origin decides. *)
Definition punc_ok (pos : nat) (t : resolved) : bool :=
  match r_origin t with
  | Some (RPrepunc _ _ _) => flag_at k_prepunc limits pos
  | Some (RPostpunc _ _ _) => flag_at k_postpunc limits pos
  | _ => true
  end.

(** primary.rs:1556-1568. *)
Definition prefer_digit (rest : str) (pos : nat) (l : list resolved) : list resolved :=
  match p_dir p, flag_at k_digit limits pos, rest with
  | Backward, true, c :: _ =>
      match assoc c (p_digits p) with
      | Some t => filter (fun t => negb (Nat.eqb (r_length t) 1)) l ++ [t]
      | None => l
      end
  | _, _, _ => l
  end.

(** primary.rs:1587-1606 [uppercase_if_needed]. *)
Definition adjust_case (pos : nat) (t : resolved) : resolved :=
  match p_dir p with
  | Forward => t
  | Backward =>
      if flag_at k_uppercase limits pos then with_output t (flat_map upper (r_output t))
      else if flag_at k_titlecase limits pos then
        with_output t (match r_output t with [] => [] | c :: r => upper c ++ r end)
      else t
  end.

(** primary.rs:1510-1580: the candidates at the cursor and the delayed translations. *)
Definition primary_candidates (s : pstate) : res (list resolved * list resolved) :=
  let at_start := Nat.eqb (blen (s_rest s)) (blen input) in
  let plain := find_translations lower (p_trie p) (s_rest s) (s_prev s) in
  do matched <- match_find lower (p_match p) at_start (s_rest s);
  do context <- cpats_find lower (p_context p) (s_env s) at_start (s_rest s);
  let delayed := s_delayed s ++ later plain ++ later matched ++ later context in
  let cs := now plain ++ now matched ++ now context ++ now delayed in
  let cs := filter (punc_ok (s_pos s)) cs in
  let cs := prefer_digit (s_rest s) (s_pos s) cs in
  let cs := if flag_at k_dont_contract limits (s_pos s)
            then filter (fun t => Nat.leb (r_length t) 1) cs else cs in
  let cs := if flag_at k_comp6 limits (s_pos s)
            then find_translations lower (p_comp6 p) (s_rest s) (s_prev s) else cs in
  Ok (cs, later delayed).

(** primary.rs:1652-1681: no rule for the character. *)
Definition fallback_piece (c : char) : res resolved :=
  match assoc c (p_chars p) with
  | Some t => Ok t
  | None =>
      match p_undefined p with
      | Some d => Ok (resolved_new [c] d 1 Main None)
      | None => do d <- handle_undefined (p_fallback p) c; Ok (resolved_new [c] d 1 Main None)
      end
  end.

(** primary.rs:1505-1508: the indications of a position, once. *)
Definition indicated (s : pstate) : list resolved :=
  if match s_last s with Some q => Nat.eqb q (s_pos s) | None => false end then []
  else nth (s_pos s) indications [].

(** primary.rs:1504-1689, one iteration. *)
Definition primary_step (s : pstate) : res pstep :=
  let out := s_out s ++ indicated s in
  let last := Some (s_pos s) in
  let nocross := max_weight (nocross_candidates (s_rest s) (s_prev s) (s_pos s)) in
  do cd <- primary_candidates s;
  let '(candidates, delayed) := cd in
  let candidate := max_weight (unseen (s_seen s) candidates) in
  let winner := match nocross with
                | None => None
                | Some n => match candidate with
                            | None => Some n
                            | Some t => if Nat.leb (r_weight t) (r_weight n) then Some n else None
                            end
                end in
  match winner, candidate, s_rest s with
  | Some n, _, _ =>
      if Nat.eqb (r_length n) 0 then Panic (* [nocross.length() - 1] underflows *)
      else Ok (PGo (mk_pstate (skipn (r_length n) (s_rest s)) (update_offsets delayed (r_length n))
                     (s_env s) (last_char (r_input n)) (s_seen s) (s_pos s + r_length n) last
                     (out ++ [adjust_case (s_pos s) n])))
  | None, Some t, _ =>
      do e <- env_apply_all (s_env s) (r_effects t);
      Ok (PGo (if Nat.eqb (r_length t) 0
               then mk_pstate (s_rest s) (update_offsets delayed (r_length t)) e (s_prev s)
                      (subset_of t :: s_seen s) (s_pos s) last (out ++ [adjust_case (s_pos s) t])
               else mk_pstate (skipn (r_length t) (s_rest s)) (update_offsets delayed (r_length t)) e
                      (last_char (r_input t)) [] (s_pos s + r_length t) last
                      (out ++ [adjust_case (s_pos s) t])))
  | None, None, c :: r =>
      do t <- fallback_piece c;
      Ok (PGo (mk_pstate r (update_offsets delayed 1) (s_env s) (Some c) (s_seen s) (S (s_pos s)) last
                         (out ++ [t])))
  | None, None, [] => Ok (PStop out)
  end.
Fixpoint primary_loop (fuel : nat) (s : pstate) : res (list resolved) :=
  match fuel with
  | 0 => OutOfFuel
  | S f => do r <- primary_step s;
           match r with
           | PGo s' => primary_loop f s'
           | PStop out => Ok out
           end
  end.
Definition primary_init : pstate := mk_pstate input [] env_new None [] 0 None [].
Definition primary_fuel : nat :=
  S (S (length input) * S ((length (p_match p) + length (p_context p)) * S (length input))).
(** primary.rs:1481-1690 [trace], given the precomputed indications and constraints. *)
Definition primary_run : res (list resolved) := primary_loop primary_fuel primary_init.
End Primary.
