(** The main pass described by its steps.

    A derivation is the list of the pieces chosen so far, each with the reason it was
    chosen.  Everything a choice depends on - how far the text has been read, the previous
    character, the values of the variables, the insertions already made, the offers kept
    for a later position - is a function of that list, so that [best] says what may be
    chosen next without reference to the state of the loop. *)
From Verif Require Import Base RuleModel TranslationModel PatternModel LoopModel.

(** Where a piece can come from.  Text and previous character, start-of-text flag and text,
    variables, or a single character are what it is looked up with. *)
Record sources := mk_sources {
  by_text : str -> option char -> resolved -> Prop;
  by_nocross : str -> option char -> resolved -> Prop;
  by_comp6 : str -> option char -> resolved -> Prop;
  by_match : bool -> str -> resolved -> Prop;
  by_context : env -> bool -> str -> resolved -> Prop;
  as_digit : char -> resolved -> Prop;
  by_character : char -> resolved -> Prop }.
Record same_sources (A B : sources) : Prop := mk_same {
  same_text : forall rest prev u, by_text A rest prev u <-> by_text B rest prev u;
  same_nocross : forall rest prev u, by_nocross A rest prev u <-> by_nocross B rest prev u;
  same_comp6 : forall rest prev u, by_comp6 A rest prev u <-> by_comp6 B rest prev u;
  same_match : forall b rest u, by_match A b rest u <-> by_match B b rest u;
  same_context : forall e b rest u, by_context A e b rest u <-> by_context B e b rest u;
  same_digit : forall c u, as_digit A c u <-> as_digit B c u;
  same_character : forall c u, by_character A c u <-> by_character B c u }.

Inductive how := ByNocross | ByRule | ByFallback.
Definition step : Type := how * resolved.

(** how many characters have been translated *)
Definition reached (a : list step) : nat := list_sum (map (fun x => r_length (snd x)) a).
(** the last character of the texts of the rules applied *)
Definition previous (a : list step) : option char := last_char (flat_map (fun x => r_input (snd x)) a).
(** the assignments made, in order *)
Definition variables (a : list step) (e : env) : Prop :=
  env_apply_all env_new (flat_map (fun x => r_effects (snd x)) a) = Ok e.
(** the insertions made since a rule that is not a nocross rule last replaced text *)
Definition insert_step (l : list subset) (x : step) : list subset :=
  match x with
  | (ByRule, t) => if Nat.eqb (r_length t) 0 then subset_of t :: l else []
  | _ => l
  end.
Definition inserted (a : list step) : list subset := fold_left insert_step a [].
(** the last step moved the cursor *)
Definition moved (a : list step) : Prop := exists b x, a = b ++ [x] /\ 0 < r_length (snd x).

Section Derivation.
Variable upper : char -> list char.
Variable src : sources.
Variable d : direction.
Variable limits : pos_flags.
Variable indications : list (list resolved).
Variable input : str.

Definition left (a : list step) : str := skipn (reached a) input.
(** what the match and context rules find, here or further on *)
Definition found (a : list step) (u : resolved) : Prop :=
  by_match src (Nat.eqb (reached a) 0) (left a) u \/
  exists e, variables a e /\ by_context src e (Nat.eqb (reached a) 0) (left a) u.
(** an offer found earlier for the position now reached *)
Definition kept (a : list step) (u : resolved) : Prop :=
  exists b c v, a = b ++ c /\ found b v /\ 0 < r_offset v /\ reached c = r_offset v /\ moved c /\
    u = with_offset v 0.
Definition offers (a : list step) (u : resolved) : Prop :=
  by_text src (left a) (previous a) u \/ (found a u /\ r_offset u = 0) \/ kept a u.
(** backward, a cell in a number is read as a digit *)
Definition digit (a : list step) (u : resolved) : Prop :=
  d = Backward /\ flag_at k_digit limits (reached a) = true /\
  exists c r, left a = c :: r /\ as_digit src c u.
(** what may be applied at the position reached *)
Definition available (a : list step) (u : resolved) : Prop :=
  if flag_at k_comp6 limits (reached a) then by_comp6 src (left a) (previous a) u
  else (flag_at k_dont_contract limits (reached a) = true -> r_length u <= 1) /\
       (digit a u \/
        offers a u /\ punc_ok limits (reached a) u = true /\
        ((exists v, digit a v) -> r_length u <> 1)).
Definition new (a : list step) (u : resolved) : Prop := ~ In (subset_of u) (inserted a).
(** a nocross rule does not stand for text with a hyphenation point inside *)
Definition nocross_available (a : list step) (u : resolved) : Prop :=
  by_nocross src (left a) (previous a) u /\
  forall q, reached a <= q -> S q < reached a + r_length u -> flag_at k_break limits q = false.
Definition best (a : list step) (x : step) : Prop :=
  match x with
  | (ByNocross, t) =>
      nocross_available a t /\
      (forall u, nocross_available a u -> r_weight u <= r_weight t) /\
      (forall u, available a u -> new a u -> r_weight u <= r_weight t)
  | (ByRule, t) =>
      available a t /\ new a t /\
      (forall u, available a u -> new a u -> r_weight u <= r_weight t) /\
      (forall u, nocross_available a u -> r_weight u < r_weight t)
  | (ByFallback, t) =>
      (exists c r, left a = c :: r /\ by_character src c t) /\
      (forall u, available a u -> ~ new a u) /\
      (forall u, ~ nocross_available a u)
  end.
Inductive derivation : list step -> Prop :=
| D_nil : derivation []
| D_step a x : derivation a -> best a x -> derivation (a ++ [x]).
Definition finished (a : list step) : Prop :=
  reached a = length input /\
  (forall u, available a u -> ~ new a u) /\ (forall u, ~ nocross_available a u).

(** ** What is put out *)
(** backward, text in capitals is put in upper case and text with a capital gets one *)
Definition cased (pos : nat) (t : resolved) : resolved :=
  match d with
  | Forward => t
  | Backward =>
      if flag_at k_uppercase limits pos then with_output t (flat_map upper (r_output t))
      else if flag_at k_titlecase limits pos then
        with_output t (match r_output t with [] => [] | c :: r => upper c ++ r end)
      else t
  end.
Definition shown (pos : nat) (x : step) : resolved :=
  match x with (ByFallback, t) => t | (_, t) => cased pos t end.
(** the indications of a position stand before the first piece there *)
Fixpoint written (pos : nat) (first : bool) (ts : list step) : list resolved :=
  (if first then nth pos indications [] else []) ++
  match ts with
  | [] => []
  | x :: r => shown pos x :: written (pos + r_length (snd x)) (Nat.ltb 0 (r_length (snd x))) r
  end.
End Derivation.
