(** Model of src/translator.rs (character definitions, display tables),
    src/parser/character_class.rs (classes), src/translator/swap.rs
    ([SwapClasses]) and src/translator/table.rs ([TableContext]).

    [compat] is the cargo feature [backwards_compatibility], which is in the
    default features of Cargo.toml: [true] is the default build. *)
From Verif Require Import Base RuleModel TranslationModel.

(** translator.rs:28-41 [TranslationError], and panics. *)
Inductive terr :=
| ImplicitCharacterNotDefined (c : char)
| BaseCharacterNotDefined (base derived : char)
| SwapClassNotDefined (name : str)
| HyphenationTableIoError
| HyphenationTableParseError.
Inductive tres (A : Type) : Type := TOk (a : A) | TErr (e : terr) | TPanic.
Arguments TOk {A} a.
Arguments TErr {A} e.
Arguments TPanic {A}.
Definition tbind {A B} (x : tres A) (f : A -> tres B) : tres B :=
  match x with TOk a => f a | TErr e => TErr e | TPanic => TPanic end.
Notation "'tdo' x <- e ; f" := (tbind e (fun x => f))
  (at level 60, x pattern, e at level 59, right associativity).

(** ** CharacterDefinition, translator.rs:43-93 *)
Definition chardefs := list (char * str).
(** translator.rs:50-58 [insert]. *)
Definition defs_insert (compat : bool) (d : chardefs) (c : char) (s : str) : chardefs :=
  if compat then match assoc c d with Some _ => d | None => (c, s) :: d end
  else (c, s) :: d.
(** translator.rs:60-62 [get]. *)
Definition defs_get (d : chardefs) (c : char) : option str := assoc c d.
(** translator.rs:64-73 [resolve_implicit_dots]: [collect] into a [Result<String, _>]
    stops at the first error. *)
Fixpoint resolve_implicit (d : chardefs) (chars : str) : tres str :=
  match chars with
  | [] => TOk []
  | c :: r => match defs_get d c with
              | None => TErr (ImplicitCharacterNotDefined c)
              | Some s => tdo t <- resolve_implicit d r; TOk (s ++ t)
              end
  end.
(** translator.rs:85-91 [braille_to_unicode]. *)
Definition braille_to_unicode (d : chardefs) (b : braille) (chars : str) : tres str :=
  match b with
  | Implicit => resolve_implicit d chars
  | Explicit s => TOk s
  end.

(** ** DisplayTable, translator.rs:95-140 *)
Definition display := list (char * char).
(** translator.rs:101-127 [compile]: one step of its loop. *)
Definition display_step (compat : bool) (d : direction) (m : display) (r : rule) : display :=
  match r with
  | RDisplay c dots _ =>
      let '(from, to) := match d with Forward => (dots, c) | Backward => (c, dots) end in
      if compat then match assoc from m with Some _ => m | None => (from, to) :: m end
      else (from, to) :: m
  | _ => m
  end.
Definition display_compile (compat : bool) (rules : list rule) (d : direction) : display :=
  fold_left (display_step compat d) (filter (is_direction d) rules) [].
(** translator.rs:134-139 [translate]. *)
Definition display_translate (m : display) (input : str) : str :=
  map (fun c => match assoc c m with Some x => x | None => c end) input.

(** ** CharacterClasses, character_class.rs:55-133.  A [HashMap<CharacterClass,
    HashSet<char>>] is the list of its (class, char) pairs: a class is a key of the
    map iff it has been inserted with some char. *)
Definition classes := list (class * char).
(** character_class.rs:66-68 [insert]. *)
Definition cls_insert (m : classes) (k : class) (c : char) : classes := (k, c) :: m.
(** character_class.rs:70-81 [insert_dot], [insert_dots]: only for single cells. *)
Definition cls_insert_dots (m : classes) (k : class) (dots : str) : classes :=
  match dots with [d] => cls_insert m k d | _ => m end.
(** character_class.rs:83-99 [insert_associated_dot]. *)
Definition cls_insert_assoc (m : classes) (k : class) (c : char) (d : chardefs) : classes :=
  match defs_get d c with
  | Some [x] => cls_insert m k x
  | _ => m
  end.
(** character_class.rs:101-103 [get]. *)
Definition cls_chars (m : classes) (k : class) : list char :=
  map snd (filter (fun p => class_eqb (fst p) k) m).
Definition cls_get (m : classes) (k : class) : option (list char) :=
  match cls_chars m k with [] => None | l => Some l end.
(** [self.get(class).is_some_and(|class| class.contains(&c))]. *)
Definition cls_has (m : classes) (k : class) (c : char) : bool :=
  match cls_get m k with Some l => mem c l | None => false end.
(** character_class.rs:105-133 the [is_*] predicates; the others are written out with [cls_has]
    where they are used. *)
Definition cls_is_whitespace (m : classes) (c : char) : bool := cls_has m CSpace c.

(** ** SwapClasses, swap.rs:30-50; [insert] overwrites. *)
Definition swaps := list (str * swapper).
Definition swaps_insert (m : swaps) (name : str) (mappings : list (char * str)) : swaps :=
  (name, swapper_new mappings) :: m.
Fixpoint swaps_get (m : swaps) (name : str) : option swapper :=
  match m with
  | [] => None
  | (n, s) :: r => if str_eqb name n then Some s else swaps_get r name
  end.

(** ** TableContext, table.rs:10-297 *)
Record context := mk_context {
  x_defs : chardefs; x_chars : classes; x_dots : classes; x_swaps : swaps }.
Definition context_empty : context := mk_context [] [] [] [].

Section Context.
(** [char::is_alphabetic] of the Rust standard library. *)
Variable is_alphabetic : char -> bool.
Variable compat : bool.

(** The arms for the character definition opcodes: definition, class of the
    character and class of its cell. *)
Definition define (x : context) (c : char) (dots : str) (ks : list class) : context :=
  mk_context (defs_insert compat (x_defs x) c dots)
             (fold_left (fun m k => cls_insert m k c) ks (x_chars x))
             (fold_left (fun m k => cls_insert_dots m k dots) ks (x_dots x))
             (x_swaps x).

(** table.rs:55-163 the first loop. *)
Definition context_step1 (x : context) (r : rule) : context :=
  match r with
  | RSpace c dots _ => define x c dots [CSpace]
  | RPunctuation c dots _ => define x c dots [CPunctuation]
  | RDigit c dots _ => define x c dots [CDigit]
  | RLitdigit c dots _ => define x c dots [CLitdigit]
  | RLetter c dots _ => define x c dots [CLetter]
  | RLowercase c dots _ => define x c dots [CLowercase; CLetter]
  | RUppercase c dots _ => define x c dots [CUppercase; CLetter]
  | RSign c dots _ => define x c dots [CSign]
  | RMath c dots _ => define x c dots [CMath]
  | RHyphen c dots _ => define x c dots [CPunctuation]
  | RDecpoint c dots => define x c dots [CPunctuation]
  | RAlways chars dots _ _ =>
      if forallb is_alphabetic chars then
        mk_context (x_defs x) (x_chars x)
                   (fold_left (fun m c => cls_insert m CLetter c) (braille_to_string dots) (x_dots x))
                   (x_swaps x)
      else x
  | _ => x
  end.

(** The loop [for c in chars.chars()] of the second pass: class of the character,
    class of its single-cell definition. *)
Definition attribute_chars (x : context) (k kd : class) (chars : str) : context :=
  mk_context (x_defs x)
             (fold_left (fun m c => cls_insert m k c) chars (x_chars x))
             (fold_left (fun m c => cls_insert_assoc m kd c (x_defs x)) chars (x_dots x))
             (x_swaps x).
Definition add_swap (x : context) (name : str) (m : list (char * str)) : context :=
  mk_context (x_defs x) (x_chars x) (x_dots x) (swaps_insert (x_swaps x) name m).

(** table.rs:165-290 the second loop.  In the three swap arms the cells of the
    characters go into the class [Seqafterchars] (sic). *)
Definition context_step2 (x : context) (r : rule) : tres context :=
  match r with
  | RBase name derived base =>
      match defs_get (x_defs x) base with
      | Some t =>
          TOk (mk_context (defs_insert compat (x_defs x) derived t)
                 (let m := cls_insert (x_chars x) (class_from name) derived in
                  if str_eqb name (lit "uppercase") || str_eqb name (lit "lowercase")
                  then cls_insert m CLetter derived else m)
                 (x_dots x) (x_swaps x))
      | None => if compat then TOk x else TErr (BaseCharacterNotDefined base derived)
      end
  | RAttribute name chars => TOk (attribute_chars x (class_from name) (class_from name) chars)
  | RSeqdelimiter chars => TOk (attribute_chars x CSeqdelimiter CSeqdelimiter chars)
  | RSeqbeforechars chars => TOk (attribute_chars x CSeqbeforechars CSeqbeforechars chars)
  | RSeqafterchars chars => TOk (attribute_chars x CSeqafterchars CSeqafterchars chars)
  | RSwapcc name chars replacement =>
      TOk (add_swap (attribute_chars x (class_from name) CSeqafterchars chars) name
                    (combine chars (map (fun c => [c]) replacement)))
  | RSwapcd name chars dots =>
      TOk (add_swap (attribute_chars x (class_from name) CSeqafterchars chars) name
                    (combine chars dots))
  | RSwapdd name dots replacement =>
      TOk (add_swap (attribute_chars x (class_from name) CSeqafterchars dots) name
                    (combine dots replacement))
  | _ => TOk x
  end.

Fixpoint context_fold2 (x : context) (rules : list rule) : tres context :=
  match rules with
  | [] => TOk x
  | r :: rest => tdo x' <- context_step2 x r; context_fold2 x' rest
  end.

(** table.rs:48-297 [TableContext::compile]. *)
Definition context_compile (rules : list rule) : tres context :=
  context_fold2 (fold_left context_step1 rules context_empty) rules.
End Context.
