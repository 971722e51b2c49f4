(** Model of src/translator/regexp.rs: the regular expression AST, its
    compilation to byte code and the Pike virtual machine.  Definitions only. *)
From Verif Require Export Base.

(** regexp.rs 31-80, [enum Regexp].  Repetition counts are [u8] in Rust and
    [nat] here; [HashSet<char>] is a list. *)
Inductive regexp : Type :=
| RLiteral (c : char)
| RConcat (l r : regexp)
| REither (l r : regexp)
| ROptional (r : regexp)
| RZeroOrMore (r : regexp)
| ROneOrMore (r : regexp)
| RAny
| RClass (cs : list char)
| RNotClass (cs : list char)
| RRepeatExactly (n : nat) (r : regexp)
| RRepeatAtLeast (n : nat) (r : regexp)
| RRepeatAtLeastAtMost (n m : nat) (r : regexp)
| RCapture (r : regexp)
| RString (s : str)
| RNotString (s : str)
| RCIString (s : str)
| RVarEq (v x : N)
| RNotVarEq (v x : N)
| RGroup (r : regexp)
| REmpty
| REndAnchor
| RNotEndAnchor
| RStartAnchor
| RNotStartAnchor
| RNever.

(** regexp.rs 269-311, [enum Instruction]. *)
Inductive instr : Type :=
| IChar (c : char)
| INotChar (c : char)
| ICIChar (c : char)
| IClass (k : nat)
| INotClass (k : nat)
| IAny
| IMatch (t : nat)
| IJump (t : nat)
| ISplit (a b : nat)
| ICapStart
| ICapEnd
| IVarEq (v x : N)
| INotVarEq (v x : N)
| IAssertEnd
| IAssertMore
| IAssertStart
| IAssertNotStart
| IFail.

(** Vector update [v[i] = x]; in the code it is only applied to an index that
    was just pushed (so it cannot panic). *)
Fixpoint upd {A} (i : nat) (x : A) (l : list A) : list A :=
  match l with
  | [] => []
  | y :: r => match i with 0 => x :: r | S i' => y :: upd i' x r end
  end.

(** The pair of growing vectors threaded through [emit]. *)
Definition code := (list instr * list (list char))%type.

Definition push (x : instr) (s : code) : code := (fst s ++ [x], snd s).
Definition patch (i : nat) (x : instr) (s : code) : code := (upd i x (fst s), snd s).
Definition here (s : code) : nat := length (fst s).

(** [for _ in 0..n { emit }] *)
Fixpoint repeat_emit (n : nat) (f : code -> code) (s : code) : code :=
  match n with
  | 0 => s
  | S n' => repeat_emit n' f (f s)
  end.

(** regexp.rs 158-261, [Regexp::emit]: appends instructions for the AST,
    pushing character classes to the side table.  Forward references are
    emitted as placeholders and patched afterwards, exactly as in the code. *)
Fixpoint emit (r : regexp) (s : code) : code :=
  match r with
  | RLiteral c => push (IChar c) s
  | RConcat a b => emit b (emit a s)
  | REither a b =>
      let p1 := here s in
      let s := push (ISplit (p1 + 1) 0) s in
      let s := emit a s in
      let p2 := here s in
      let s := push (IJump 0) s in
      let s := patch p1 (ISplit (p1 + 1) (p2 + 1)) s in
      let s := emit b s in
      patch p2 (IJump (here s)) s
  | ROptional a =>
      let pos := here s in
      let s := push (ISplit (pos + 1) 0) s in
      let s := emit a s in
      patch pos (ISplit (pos + 1) (here s)) s
  | RZeroOrMore a =>
      let pos := here s in
      let s := push (ISplit (pos + 1) 0) s in
      let s := emit a s in
      let s := push (IJump pos) s in
      patch pos (ISplit (pos + 1) (here s)) s
  | ROneOrMore a =>
      let pos := here s in
      let s := emit a s in
      push (ISplit pos (here s + 1)) s
  | RAny => push IAny s
  | RClass cs =>
      let s := (fst s, snd s ++ [cs]) in
      push (IClass (length (snd s) - 1)) s
  | RNotClass cs =>
      let s := (fst s, snd s ++ [cs]) in
      push (INotClass (length (snd s) - 1)) s
  | RRepeatExactly n a => repeat_emit n (emit a) s
  | RRepeatAtLeast n a =>
      let s := repeat_emit n (emit a) s in
      let pos := here s in
      let s := push (ISplit (pos + 1) 0) s in
      let s := emit a s in
      let s := push (IJump pos) s in
      patch pos (ISplit (pos + 1) (here s)) s
  | RRepeatAtLeastAtMost n m a =>
      let s := repeat_emit n (emit a) s in
      let pos := here s in
      let s := push (ISplit (pos + 1) 0) s in
      (* [for _ in *min..*max]: empty when max <= min *)
      let s := repeat_emit (m - n) (emit a) s in
      let s := push (IJump pos) s in
      patch pos (ISplit (pos + 1) (here s)) s
  | RCapture a => push ICapEnd (emit a (push ICapStart s))
  | RString cs => (fst s ++ map IChar cs, snd s)
  | RNotString cs => (fst s ++ map INotChar cs, snd s)
  | RCIString cs => (fst s ++ map ICIChar cs, snd s)
  | RVarEq v x => push (IVarEq v x) s
  | RNotVarEq v x => push (INotVarEq v x) s
  | RGroup a => emit a s
  | REmpty => s
  | REndAnchor => push IAssertEnd s
  | RNotEndAnchor => push IAssertMore s
  | RStartAnchor => push IAssertStart s
  | RNotStartAnchor => push IAssertNotStart s
  | RNever => push IFail s
  end.

(** regexp.rs 140-152, [compile_with_payload]: the single payload has index 0. *)
Definition compile (r : regexp) : code := push (IMatch 0) (emit r ([], [])).

(** regexp.rs 89-137, [Regexp::negate]; [None] is a panic ([todo!] or
    [unreachable!]). *)
Fixpoint negate (r : regexp) : option regexp :=
  match r with
  | RLiteral _ => None
  | RConcat a b =>
      match negate a, negate b with
      | Some a', Some b' => Some (RConcat a' b')
      | _, _ => None
      end
  | REither a b =>
      match negate a, negate b with
      | Some a', Some b' => Some (REither a' b')
      | _, _ => None
      end
  | ROptional a => option_map ROptional (negate a)
  | RZeroOrMore a => option_map RZeroOrMore (negate a)
  | ROneOrMore a => option_map ROneOrMore (negate a)
  | RAny => Some RNever
  | RClass cs => Some (RNotClass cs)
  | RNotClass _ => None
  | RRepeatExactly n a => option_map (RRepeatExactly n) (negate a)
  | RRepeatAtLeast n a => option_map (RRepeatAtLeast n) (negate a)
  | RRepeatAtLeastAtMost n m a => option_map (RRepeatAtLeastAtMost n m) (negate a)
  | RCapture _ => None
  | RString s => Some (RNotString s)
  | RNotString _ => None
  | RCIString _ => None
  | RVarEq v x => Some (RNotVarEq v x)
  | RNotVarEq _ _ => None
  | RGroup a => option_map RGroup (negate a)
  | REmpty => Some RNever
  | RNever => Some REmpty
  | REndAnchor => Some RNotEndAnchor
  | RNotEndAnchor => Some REndAnchor
  | RStartAnchor => Some RNotStartAnchor
  | RNotStartAnchor => Some RStartAnchor
  end.

Section VM.

(** [char::to_lowercase] of the standard library: the sequence of chars it yields. *)
Variable lower : char -> list char.

(** effect.rs 28-37, the variable environment as seen by the matcher
    ([env.get]). *)
Variable env : N -> option N.

(** Whether this call starts at the true beginning of the translated text. *)
Variable at_start : bool.

(** The compiled program. *)
Variable prog : list instr.
Variable classes : list (list char).

(** regexp.rs 26-28, [chars_match_case_insensitive]. *)
Definition ci_match (actual expected : char) : bool :=
  match lower actual with
  | [x] => N.eqb x expected
  | _ => false
  end.

(** regexp.rs 331-334, [struct Thread]: pc and capture (byte offsets). *)
Definition thread := (nat * (nat * nat))%type.

(** regexp.rs 366-392, [ThreadList].  The bitset of seen pcs is a list. *)
Definition tlist := (list thread * list nat)%type.

Definition seenb (pc : nat) (s : list nat) : bool := existsb (Nat.eqb pc) s.

(** regexp.rs 399-455, [add_thread].  [sp] and [ilen] are byte offsets.
    Recursion is fuelled; an index out of range panics. *)
Fixpoint add_thread (fuel : nat) (tl : tlist) (pc : nat) (cap : nat * nat)
                    (sp ilen : nat) {struct fuel} : res tlist :=
  match fuel with
  | 0 => OutOfFuel
  | S f =>
    if seenb pc (snd tl) then Ok tl else
    let tl := (fst tl, pc :: snd tl) in
    match nth_error prog pc with
    | None => Panic
    | Some (IJump t) => add_thread f tl t cap sp ilen
    | Some (ISplit a b) =>
        do tl <- add_thread f tl a cap sp ilen;
        add_thread f tl b cap sp ilen
    | Some ICapStart => add_thread f tl (pc + 1) (sp, 0) sp ilen
    | Some ICapEnd => add_thread f tl (pc + 1) (fst cap, sp) sp ilen
    | Some (IVarEq v x) =>
        match env v with
        | Some y => if N.eqb y x then add_thread f tl (pc + 1) cap sp ilen else Ok tl
        | None => Ok tl
        end
    | Some (INotVarEq v x) =>
        match env v with
        | Some y => if negb (N.eqb y x) then add_thread f tl (pc + 1) cap sp ilen else Ok tl
        | None => Ok tl
        end
    | Some IAssertEnd =>
        if Nat.eqb sp ilen then add_thread f tl (pc + 1) cap sp ilen else Ok tl
    | Some IAssertMore =>
        if negb (Nat.eqb sp ilen) then add_thread f tl (pc + 1) cap sp ilen else Ok tl
    | Some IAssertStart =>
        if at_start && Nat.eqb sp 0 then add_thread f tl (pc + 1) cap sp ilen else Ok tl
    | Some IAssertNotStart =>
        if negb (at_start && Nat.eqb sp 0) then add_thread f tl (pc + 1) cap sp ilen else Ok tl
    | Some IFail => Ok tl
    | Some _ => Ok (fst tl ++ [(pc, cap)], snd tl)
    end
  end.

(** Fuel that suffices: one more than the number of instructions (proved). *)
Definition at_fuel : nat := S (length prog).

(** regexp.rs 492-494: the best match so far: capture, consumed chars, payload. *)
Definition matched := option ((nat * nat) * nat * nat)%type.

(** Does a character consuming instruction accept the next char?  [None] marks
    an instruction that is not character consuming ([unreachable!] in the code)
    or a class index out of range.  regexp.rs 511-594. *)
Definition accepts (i : instr) (next : option char) : option bool :=
  match i with
  | IChar e => Some (match next with Some a => N.eqb a e | None => false end)
  | INotChar e => Some (match next with Some a => negb (N.eqb a e) | None => false end)
  | ICIChar e => Some (match next with Some a => ci_match a e | None => false end)
  | IClass k => match next with
                | None => Some false
                | Some a => option_map (mem a) (nth_error classes k)
                end
  | INotClass k => match next with
                   | None => Some false
                   | Some a => option_map (fun cs => negb (mem a cs)) (nth_error classes k)
                   end
  | IAny => Some (match next with Some _ => true | None => false end)
  | _ => None
  end.

(** regexp.rs 502-599, the [for thread in &current.threads] loop of one step.
    The new byte offset is [sp + len_utf8] of the char consumed (for
    [Instruction::Char] the code adds the length of the expected char, which is
    the same char). *)
Fixpoint step_threads (ts : list thread) (next_char : option char) (sp ilen len : nat)
                      (next : tlist) (m : matched) : res (tlist * matched) :=
  match ts with
  | [] => Ok (next, m)
  | (pc, cap) :: r =>
      match nth_error prog pc with
      | None => Panic
      | Some (IMatch t) => Ok (next, Some (cap, len, t))
      | Some i =>
          match accepts i next_char with
          | None => Panic
          | Some false => step_threads r next_char sp ilen len next m
          | Some true =>
              match next_char with
              | None => Panic
              | Some c =>
                  do next <- add_thread at_fuel next (pc + 1) cap (sp + len_utf8 c) ilen;
                  step_threads r next_char sp ilen len next m
              end
          end
      end
  end.

(** regexp.rs 499-604, the main [while] loop. *)
Fixpoint vm_loop (fuel : nat) (input : str) (sp len : nat)
                 (current : list thread) (m : matched) : res matched :=
  match fuel with
  | 0 => OutOfFuel
  | S f =>
    match current with
    | [] => Ok m
    | _ =>
      match slice_from input sp with
      | None => Panic
      | Some rest =>
        let next_char := hd_error rest in
        do (next, m) <- step_threads current next_char sp (blen input) len ([], []) m;
        match next_char with
        | None => Ok m
        | Some c => vm_loop f input (sp + len_utf8 c) (S len) (fst next) m
        end
      end
    end
  end.

(** What a match reports: the captured text, the number of chars consumed, the
    number of chars before the capture, and the payload index. *)
Record found := { f_capture : str; f_length : nat; f_offset : nat; f_index : nat }.

(** regexp.rs 474-614, [find_anchored]. *)
Definition find_anchored (input : str) : res (option found) :=
  do tl <- add_thread at_fuel ([], []) 0 (0, 0) 0 (blen input);
  do m <- vm_loop (S (S (length input))) input 0 0 (fst tl) None;
  match m with
  | None => Ok None
  | Some ((start, stop), len, idx) =>
      do capture <- opt_res (slice input start stop);
      do before <- opt_res (slice_to input start);
      Ok (Some {| f_capture := capture; f_length := len;
                  f_offset := length before; f_index := idx |})
  end.

End VM.

(** Compile and run ([compile_with_payload] followed by [find_anchored]). *)
Definition regexp_find (lower : char -> list char) (r : regexp) (env : N -> option N)
                       (at_start : bool) (input : str) : res (option found) :=
  let c := compile r in
  find_anchored lower env at_start (fst c) (snd c) input.
