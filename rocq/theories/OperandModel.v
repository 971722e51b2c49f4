(** Model of the parsers of rule operands: [unescape] (src/parser.rs), the test and
    action parsers (src/parser/multipass/test.rs, action.rs) and the match pattern
    parser (src/parser/match_rule.rs).

    A parser takes the characters that are left and returns the value and the
    remaining characters.  The different error values are not distinguished
    ([Bad]).  Loops and recursion are fuelled ([NoFuel]); the theorems show the
    fuel given suffices. *)
From Verif Require Import Base RuleModel BrailleModel.

Inductive pr (A : Type) : Type := Good (a : A) (rest : str) | Bad | NoFuel.
Arguments Good {A} a rest.
Arguments Bad {A}.
Arguments NoFuel {A}.
Definition pbind {A B} (x : pr A) (f : A -> str -> pr B) : pr B :=
  match x with Good a r => f a r | Bad => Bad | NoFuel => NoFuel end.
Notation "'pdo' a r <- e ; f" := (pbind e (fun a r => f))
  (at level 60, a name, r name, e at level 59, right associativity).

(** ** Numbers *)

(** [char::to_digit(16)]. *)
Definition hex_val (c : char) : option N :=
  if (N.leb 48 c && N.leb c 57)%bool then Some (c - 48)%N
  else if (N.leb 97 c && N.leb c 102)%bool then Some (c - 87)%N
  else if (N.leb 65 c && N.leb c 70)%bool then Some (c - 55)%N
  else None.
Fixpoint hex_digits (acc : N) (s : str) : option N :=
  match s with
  | [] => Some acc
  | c :: r => match hex_val c with Some v => hex_digits (acc * 16 + v)%N r | None => None end
  end.
(** [u32::from_str_radix(s, 16)] for at most five characters (no overflow): a leading
    '+' is accepted; no digits at all is an error. *)
Definition from_radix16 (s : str) : option N :=
  match s with
  | [] => None
  | c :: r => if N.eqb c 43 then match r with [] => None | _ => hex_digits 0 r end
              else hex_digits 0 s
  end.

Definition is_ascii_digit (c : char) : bool := (N.leb 48 c && N.leb c 57)%bool.
Definition is_ascii_alphabetic (c : char) : bool :=
  ((N.leb 65 c && N.leb c 90) || (N.leb 97 c && N.leb c 122))%bool.

(** [while peek().filter(p).is_some() { s.push(next()) }]. *)
Fixpoint take_while (p : char -> bool) (s : str) : str * str :=
  match s with
  | [] => ([], [])
  | c :: r => if p c then let '(a, b) := take_while p r in (c :: a, b) else ([], s)
  end.

(** [str::parse::<u8>] of a string of ASCII digits. *)
Definition parse_u8 (s : str) : option N :=
  match s with
  | [] => None
  | _ => let v := fold_left (fun acc c => acc * 10 + (c - 48))%N s 0%N in
         if N.leb v 255 then Some v else None
  end.

(** ** unescape, parser.rs:1094-1184 *)

(** parser.rs:1094-1098 [EscapingContext]. *)
Inductive escaping := EscDefault | EscMatchPattern.

(** [char::decode_utf16([unit, low]).next()] being [Some(Ok(c))], for a surrogate [unit]. *)
Definition decode_pair (unit low : N) : option char :=
  if (N.leb 0xD800 unit && N.ltb unit 0xDC00 && N.leb 0xDC00 low && N.ltb low 0xE000)%bool
  then Some (0x10000 + (unit - 0xD800) * 0x400 + (low - 0xDC00))%N
  else None.

(** parser.rs:1100-1149 [unescape_unicode]. *)
Definition unescape_unicode (len : nat) (s : str) : pr char :=
  if Nat.ltb (length s) len then Bad else
  let hex := firstn len s in
  let rest := skipn len s in
  match from_radix16 hex with
  | None => Bad
  | Some v =>
      match char_from_u32 v with
      | Some c => Good c rest
      | None =>
          if N.ltb 0xFFFF v then Bad else
          let pair :=
            if Nat.eqb len 4 then
              match rest with
              | b :: x :: look =>
                  if (N.eqb b 92 && N.eqb x 120)%bool then
                    match from_radix16 (firstn 4 look) with
                    | Some low => option_map (fun c => (c, skipn 4 look)) (decode_pair v low)
                    | None => None
                    end
                  else None
              | _ => None
              end
            else None in
          match pair with
          | Some (c, r) => Good c r
          | None => Good 0xFFFD%N rest
          end
      end
  end.

(** parser.rs:1151-1183 [unescape]. *)
Definition simple_escape (c : char) : option char :=
  assoc c [(102, 12); (110, 10); (114, 13); (116, 9); (115, 32); (118, 11); (101, 27); (92, 92)]%N.

Fixpoint unescape_go (fuel : nat) (k : escaping) (s : str) : pr str :=
  match fuel with
  | 0 => NoFuel
  | S f =>
    match s with
    | [] => Good [] []
    | c :: r =>
      if negb (N.eqb c 92) then pdo t r' <- unescape_go f k r; Good (c :: t) r'
      else match r with
      | [] => Bad
      | e :: r1 =>
        match simple_escape e with
        | Some x => pdo t r' <- unescape_go f k r1; Good (x :: t) r'
        | None =>
          if (match k with EscMatchPattern => mem e [40; 41; 93]%N | EscDefault => false end) then
            pdo t r' <- unescape_go f k r1; Good (92%N :: e :: t) r'
          else if N.eqb e 120 then
            pdo x r2 <- unescape_unicode 4 r1;
            pdo t r' <- unescape_go f k r2; Good (x :: t) r'
          else if N.eqb e 121 then
            pdo x r2 <- unescape_unicode 5 r1;
            pdo t r' <- unescape_go f k r2; Good (x :: t) r'
          else Bad
        end
      end
    end
  end.
Definition unescape (k : escaping) (s : str) : pr str := unescape_go (S (length s)) k s.

(** ** Common parts of the multipass parsers *)

(** multipass/test.rs:174-186, action.rs:130-142 [consume]. *)
Definition consume (e : char) (s : str) : pr unit :=
  match s with c :: r => if N.eqb c e then Good tt r else Bad | [] => Bad end.

(** test.rs:165-172, action.rs:230-237 [ascii_number]. *)
Definition ascii_number (s : str) : pr N :=
  let '(d, r) := take_while is_ascii_digit s in
  match parse_u8 d with Some n => Good n r | None => Bad end.

(** test.rs:297-309, action.rs:194-206 [unescape_unicode]. *)
Definition mp_unescape_unicode (len : nat) (s : str) : pr char :=
  if Nat.ltb (length s) len then Bad else
  match from_radix16 (firstn len s) with
  | Some v => match char_from_u32 v with Some c => Good c (skipn len s) | None => Bad end
  | None => Bad
  end.

(** test.rs:269-295, action.rs:166-192 [handle_escape_sequence]; [s] is what follows [c]. *)
Definition handle_escape (c : char) (s : str) : pr char :=
  if negb (N.eqb c 92) then Good c s
  else match s with
       | [] => Bad
       | e :: r =>
           if N.eqb e 115 then Good 32%N r
           else if N.eqb e 34 then Good 34%N r
           else if N.eqb e 120 then mp_unescape_unicode 4 r
           else if N.eqb e 121 then mp_unescape_unicode 5 r
           else Good c s
       end.

(** test.rs:311-321, action.rs:208-218 [string], after the opening quote. *)
Fixpoint string_body (fuel : nat) (s : str) : pr str :=
  match fuel with
  | 0 => NoFuel
  | S f =>
    match s with
    | [] => Bad
    | c :: r =>
        if N.eqb c 34 then Good [] r
        else pdo x r1 <- handle_escape c r;
             pdo t r2 <- string_body f r1;
             Good (x :: t) r2
    end
  end.
Definition quoted (s : str) : pr str :=
  pdo u r <- consume 34%N s; string_body (S (length r)) r.

(** braille.rs:187-189 [is_braille_dot]. *)
Definition is_braille_dot (c : char) : bool :=
  (is_ascii_digit c || (N.leb 97 c && N.leb c 102))%bool.

(** test.rs:247-267, action.rs:144-164 [dots]; the cells are converted to Unicode here
    (in the code when the rule is compiled). *)
Definition dots (s : str) : pr str :=
  pdo u r <- consume 64%N s;
  let '(d, r') := take_while (fun c => is_braille_dot c || N.eqb c 45)%bool r in
  match cells_of_str d with
  | POk cs => match cells_to_string cs with Ok t => Good t r' | _ => Bad end
  | PInvalid _ => Bad
  end.

(** ** The test parser, multipass/test.rs *)

(** test.rs:188-214 [maybe_quantifier]. *)
Definition maybe_quantifier (s : str) : pr (option quantifier) :=
  match s with
  | [] => Good None s
  | c :: r =>
      if N.eqb c 46 then Good (Some QOneOrMore) r
      else if is_ascii_digit c then
        pdo m r1 <- ascii_number s;
        match r1 with
        | d :: r2 =>
            if N.eqb d 45 then
              pdo n r3 <- ascii_number r2;
              if N.leb n m then Bad else Good (Some (QRange m n)) r3
            else Good (Some (QNumber m)) r1
        | [] => Good (Some (QNumber m)) r1
        end
      else Good None s
  end.

(** test.rs:216-245 [class]. *)
Definition p_class (s : str) : pr test_instr :=
  pdo u r <- consume 37%N s;
  match r with
  | c :: r1 =>
      if (N.leb 49 c && N.leb c 55)%bool then Good (TClass [c] None) r1
      else let '(name, r2) := take_while is_ascii_alphabetic r in
           match name with
           | [] => Bad
           | _ => pdo q r3 <- maybe_quantifier r2; Good (TClass name q) r3
           end
  | [] => Bad
  end.

(** test.rs:323-330 [lookback]. *)
Definition p_lookback (s : str) : pr test_instr :=
  pdo u r <- consume 95%N s;
  match r with
  | c :: _ => if is_ascii_digit c then pdo n r1 <- ascii_number r; Good (TLookback n) r1
              else Good (TLookback 1%N) r
  | [] => Good (TLookback 1%N) r
  end.

(** test.rs:332-351 [attribute] and test.rs:138-143 [is_attribute]. *)
Definition test_attribute (c : char) : option attribute :=
  assoc c [(97, AAny); (100, AClass CDigit); (68, AClass CLitdigit); (108, AClass CLetter);
           (109, AClass CMath); (112, AClass CPunctuation); (83, AClass CSign); (115, AClass CSpace);
           (85, AClass CUppercase); (117, AClass CLowercase);
           (119, AByOrder 1); (120, AByOrder 2); (121, AByOrder 3); (122, AByOrder 4)]%N.
Fixpoint attributes_body (s : str) : list attribute * str :=
  match s with
  | [] => ([], [])
  | c :: r => match test_attribute c with
              | Some a => let '(l, r') := attributes_body r in (a :: l, r')
              | None => ([], s)
              end
  end.
(** test.rs:353-367 [attributes]. *)
Definition p_attributes (s : str) : pr test_instr :=
  pdo u r <- consume 36%N s;
  let '(l, r1) := attributes_body r in
  match l with
  | [] => Bad
  | _ => pdo q r2 <- maybe_quantifier r1; Good (TAttributes l q) r2
  end.

(** test.rs:376-398 [operator]. *)
Definition p_operator (s : str) : pr operator :=
  match s with
  | [] => Bad
  | c :: r =>
      if N.eqb c 61 then Good OpEq r
      else if N.eqb c 60 then
        match r with
        | d :: r1 => if N.eqb d 61 then Good OpLtEq r1 else Good OpLt r
        | [] => Bad
        end
      else if N.eqb c 62 then
        match r with
        | d :: r1 => if N.eqb d 61 then Good OpGtEq r1 else Good OpGt r
        | [] => Bad
        end
      else Bad
  end.
(** test.rs:400-409 [variable]. *)
Definition p_variable (s : str) : pr test_instr :=
  pdo u r <- consume 35%N s;
  pdo v r1 <- ascii_number r;
  pdo o r2 <- p_operator r1;
  pdo x r3 <- ascii_number r2;
  Good (TVariable v o x) r3.

(** test.rs:145-147 [is_test]. *)
Definition is_test (c : char) : bool := mem c [95; 37; 64; 34; 36; 91; 35; 33; 96; 126]%N.

Definition is_negate (t : test_instr) : bool := match t with TNegate _ => true | _ => false end.

(** test.rs:369-374 [replacement], 411-423 [negate], 425-433, 435-450 [test], 452-458
    [many_tests]. *)
Fixpoint p_test (fuel : nat) (s : str) : pr test_instr :=
  match fuel with
  | 0 => NoFuel
  | S f =>
    match s with
    | [] => Bad
    | c :: r =>
      if N.eqb c 95 then p_lookback s
      else if N.eqb c 37 then p_class s
      else if N.eqb c 64 then pdo d r1 <- dots s; Good (TDots d) r1
      else if N.eqb c 34 then pdo t r1 <- quoted s; Good (TString t) r1
      else if N.eqb c 36 then p_attributes s
      else if N.eqb c 91 then
        pdo ts r1 <- p_many f r; pdo u r2 <- consume 93%N r1; Good (TReplace ts) r2
      else if N.eqb c 35 then p_variable s
      else if N.eqb c 33 then
        pdo t r1 <- p_test f r;
        if (is_negate t || match t with TReplace _ => true | _ => false end)%bool then Bad
        else Good (TNegate t) r1
      else if N.eqb c 96 then Good TAtBeginning r
      else if N.eqb c 126 then Good TAtEnd r
      else Bad
    end
  end
with p_many (fuel : nat) (s : str) : pr (list test_instr) :=
  match fuel with
  | 0 => NoFuel
  | S f =>
    match s with
    | c :: _ => if is_test c then
                  pdo t r <- p_test f s; pdo ts r1 <- p_many f r; Good (t :: ts) r1
                else Good [] s
    | [] => Good [] []
    end
  end.
(** test.rs:461-471 [tests]. *)
Definition parse_tests (s : str) : pr (list test_instr) :=
  pdo ts r <- p_many (2 * length s + 2) s;
  match ts, r with
  | [], _ => Bad
  | _, _ :: _ => Bad
  | _, [] => Good ts []
  end.

(** ** The action parser, multipass/action.rs *)

(** action.rs:239-256 [variable]: the '+' or '-' is only peeked at, not consumed. *)
Definition a_variable (s : str) : pr action_instr :=
  pdo u r <- consume 35%N s;
  pdo v r1 <- ascii_number r;
  match r1 with
  | c :: r2 =>
      if N.eqb c 61 then pdo x r3 <- ascii_number r2; Good (ActAssignment v x) r3
      else if N.eqb c 43 then Good (ActIncrement v) r1
      else if N.eqb c 45 then Good (ActDecrement v) r1
      else Bad
  | [] => Bad
  end.
(** action.rs:258-274 [class]. *)
Definition a_class (s : str) : pr action_instr :=
  pdo u r <- consume 37%N s;
  let '(name, r1) := take_while is_ascii_alphabetic r in
  match name with [] => Bad | _ => Good (ActSwapClass name) r1 end.
(** action.rs:115-117 [is_action]. *)
Definition is_action (c : char) : bool := mem c [64; 34; 37; 35; 42; 63]%N.
(** action.rs:276-287 [action]. *)
Definition p_action (s : str) : pr action_instr :=
  match s with
  | [] => Bad
  | c :: r =>
      if N.eqb c 64 then pdo d r1 <- dots s; Good (ActDots d) r1
      else if N.eqb c 34 then pdo t r1 <- quoted s; Good (ActString t) r1
      else if N.eqb c 42 then Good ActReplace r
      else if N.eqb c 63 then Good ActIgnore r
      else if N.eqb c 35 then a_variable s
      else if N.eqb c 37 then a_class s
      else Bad
  end.
Fixpoint a_many (fuel : nat) (s : str) : pr (list action_instr) :=
  match fuel with
  | 0 => NoFuel
  | S f =>
    match s with
    | c :: _ => if is_action c then
                  pdo t r <- p_action s; pdo ts r1 <- a_many f r; Good (t :: ts) r1
                else Good [] s
    | [] => Good [] []
    end
  end.
(** action.rs:289-307 [many_actions], [actions]. *)
Definition parse_actions (s : str) : pr (list action_instr) :=
  pdo ts r <- a_many (S (length s)) s;
  match ts, r with
  | [], _ => Bad
  | _, _ :: _ => Bad
  | _, [] => Good ts []
  end.

(** ** The match pattern parser, match_rule.rs *)

(** match_rule.rs:125-127 [char_is_special]: one of  . * % ^ $ ! [ ] ( ) \ ? + | *)
Definition char_is_special (c : char) : bool :=
  mem c [46; 42; 37; 94; 36; 33; 91; 93; 40; 41; 92; 63; 43; 124]%N.

(** match_rule.rs:151-172 [attribute]. *)
Definition match_attribute (c : char) : option attribute :=
  if (N.leb 48 c && N.leb c 55)%bool then Some (AClass (CUser [c])) else
  assoc c [(95, AClass CSpace); (35, AClass CDigit); (97, AClass CLetter); (117, AClass CUppercase);
           (108, AClass CLowercase); (46, AClass CPunctuation); (36, AClass CSign);
           (126, AClass CSeqdelimiter); (60, AClass CSeqbeforechars); (62, AClass CSeqafterchars);
           (94, ABoundary)]%N.

(** match_rule.rs:174-184 [characters]. *)
Definition m_characters (s : str) : pr pattern :=
  let '(cs, r) := take_while (fun c => negb (char_is_special c)) s in
  match cs with [] => Bad | _ => Good (PCharacters cs) r end.

(** match_rule.rs:186-214 [set], after the opening bracket. *)
Fixpoint set_body (s : str) : pr (list char) :=
  match s with
  | [] => Bad
  | c :: r =>
      if N.eqb c 93 then Good [] r
      else if N.eqb c 92 then
        match r with
        | e :: r1 => if mem e [93; 40; 41]%N then pdo l r2 <- set_body r1; Good (e :: l) r2 else Bad
        | [] => Bad
        end
      else pdo l r2 <- set_body r; Good (c :: l) r2
  end.
Definition m_set (s : str) : pr pattern :=
  pdo u r <- consume 91%N s;
  pdo l r1 <- set_body r;
  match l with [] => Bad | _ => Good (PSet l) r1 end.

(** match_rule.rs:217-230: the attributes up to the closing bracket. *)
Fixpoint mattrs_body (s : str) : pr (list attribute) :=
  match s with
  | [] => Bad
  | c :: r =>
      if N.eqb c 93 then Good [] r
      else match match_attribute c with
           | Some a => pdo l r1 <- mattrs_body r; Good (a :: l) r1
           | None => Bad
           end
  end.
Definition is_boundary (a : attribute) : bool := match a with ABoundary => true | _ => false end.
(** match_rule.rs:216-248 [attributes]. *)
Definition m_attributes (sd : side) (s : str) : pr pattern :=
  pdo u r <- consume 37%N s;
  pdo attrs r1 <-
    match r with
    | c :: r' =>
        if N.eqb c 91 then
          pdo l r2 <- mattrs_body r'; match l with [] => Bad | _ => Good l r2 end
        else match match_attribute c with Some a => Good [a] r' | None => Bad end
    | [] => Bad
    end;
  let others := filter (fun a => negb (is_boundary a)) attrs in
  if existsb is_boundary attrs then
    match others with
    | [] => Good (PBoundary sd) r1
    | _ => Good (PAttributesOrBoundary others sd) r1
    end
  else Good (PAttributes attrs) r1.

(** match_rule.rs:304-312: the optional quantifier after a pattern. *)
Definition m_quantifier (p : pattern) (s : str) : pattern * str :=
  match s with
  | c :: r => if N.eqb c 63 then (POptional p, r)
              else if N.eqb c 42 then (PZeroOrMore p, r)
              else if N.eqb c 43 then (POneOrMore p, r)
              else (p, s)
  | [] => (p, s)
  end.
Definition is_pnegate (p : pattern) : bool := match p with PNegate _ => true | _ => false end.

(** match_rule.rs:250-339 [any], [group], [negate], [start_boundary], [end_boundary],
    [inner_pattern], [pattern_with_quantifier], [sequence], [either]. *)
Fixpoint m_inner (fuel : nat) (sd : side) (s : str) : pr pattern :=
  match fuel with
  | 0 => NoFuel
  | S f =>
    match s with
    | [] => Bad
    | c :: r =>
        if N.eqb c 46 then Good PAny r
        else if N.eqb c 37 then m_attributes sd s
        else if N.eqb c 94 then Good (PBoundary sd) r
        else if N.eqb c 36 then Good (PBoundary sd) r
        else if N.eqb c 33 then
          pdo p r1 <- m_pattern f sd r; if is_pnegate p then Bad else Good (PNegate p) r1
        else if N.eqb c 91 then m_set s
        else if N.eqb c 40 then
          pdo ps r1 <- m_either f sd r;
          pdo u r2 <- consume 41%N r1;
          match ps with [] => Bad | _ => Good (PGroup ps) r2 end
        else m_characters s
    end
  end
with m_pattern (fuel : nat) (sd : side) (s : str) : pr pattern :=
  match fuel with
  | 0 => NoFuel
  | S f => pdo p r <- m_inner f sd s; let '(q, r1) := m_quantifier p r in Good q r1
  end
with m_sequence (fuel : nat) (sd : side) (s : str) : pr (list pattern) :=
  match fuel with
  | 0 => NoFuel
  | S f =>
    match s with
    | [] => Good [] []
    | c :: _ =>
        if (N.eqb c 124 || N.eqb c 41)%bool then Good [] s
        else pdo p r <- m_pattern f sd s; pdo ps r1 <- m_sequence f sd r; Good (p :: ps) r1
    end
  end
with m_either (fuel : nat) (sd : side) (s : str) : pr (list pattern) :=
  match fuel with
  | 0 => NoFuel
  | S f =>
    if (match s with c :: _ => N.eqb c 124 | [] => false end) then Bad
    else pdo l r <- m_sequence f sd s; m_alternatives f sd l r
  end
with m_alternatives (fuel : nat) (sd : side) (left : list pattern) (s : str) : pr (list pattern) :=
  match fuel with
  | 0 => NoFuel
  | S f =>
    match s with
    | c :: r =>
        if N.eqb c 124 then
          pdo right r1 <- m_sequence f sd r;
          match right with
          | [] => Bad
          | _ => m_alternatives f sd [PEither left right] r1
          end
        else Good left s
    | [] => Good left s
    end
  end.
(** match_rule.rs:341-353 [pattern]. *)
Definition parse_match_pattern (sd : side) (s : str) : pr (list pattern) :=
  match s with
  | [] => Good [] []
  | c :: rest =>
      if N.eqb c 45 then Good [PEmpty] rest
      else pdo ps r <- m_either (4 * length s + 8) sd s;
           match r with [] => Good ps [] | _ => Bad end
  end.
(** parser.rs:1609-1637 [match_pre], [match_post]. *)
Definition match_operand (sd : side) (token : str) : pr (list pattern) :=
  pdo s r <- unescape EscMatchPattern token; parse_match_pattern sd s.
