(** Model of src/translator/translation.rs, effect.rs, swap.rs and of the
    position maps of src/lib.rs. *)
From Verif Require Import Base RuleModel.

(** translation.rs:10-24 [TranslationStage]. *)
Inductive stage := Pre | Main | Post1 | Post2 | Post3.

(** The [origin] field ([Option<AnchoredRule>]): the rule a translation comes from. *)
Definition origin := option rule.

(** effect.rs:3-14 [Effect], [EffectKind]; a slot is a [u8]. *)
Inductive effect_kind := Increment | Decrement | SetTo (v : N).
Record effect := mk_effect { ef_slot : N; ef_kind : effect_kind }.

(** effect.rs:16-23 [Effect::new]: the only constructor used by the translator. *)
Definition effect_new (slot value : N) : effect := mk_effect slot (SetTo value).

(** effect.rs:25-56 [Environment]: a map from slots to values.  Inserting at the
    front of the association list overwrites. *)
Definition env := list (N * N).
Definition env_new : env := [].
Definition env_get (e : env) (slot : N) : option N := assoc slot e.

(** effect.rs:36-55 [Environment::apply].  [*v += 1] on a [u8] panics on overflow
    in a debug build (it wraps in a release build); modelled as a panic. *)
Definition env_apply (e : env) (f : effect) : res env :=
  let s := ef_slot f in
  match ef_kind f with
  | Increment =>
      match env_get e s with
      | Some v => if N.ltb v 255 then Ok ((s, (v + 1)%N) :: e) else Panic
      | None => Ok ((s, 1%N) :: e)
      end
  | Decrement =>
      match env_get e s with
      | Some v => Ok ((s, if N.ltb 0 v then (v - 1)%N else 0%N) :: e)
      | None => Ok ((s, 0%N) :: e)
      end
  | SetTo v => Ok ((s, v) :: e)
  end.

(** The loop [for effect in t.effects() { env.apply(effect) }] of
    table/primary.rs and table/multipass.rs. *)
Fixpoint env_apply_all (e : env) (fs : list effect) : res env :=
  match fs with
  | [] => Ok e
  | f :: r => do e' <- env_apply e f; env_apply_all e' r
  end.

(** swap.rs:14-18 [Swapper::new]: [HashMap::from_iter], later mappings overwrite
    earlier ones. *)
Definition swapper := list (char * str).
Definition swapper_new (mappings : list (char * str)) : swapper := rev mappings.

(** swap.rs:20-26 [Swapper::swap]. *)
Definition swap (sw : swapper) (input : str) : str :=
  flat_map (fun c => match assoc c sw with Some s => s | None => [c] end) input.

(** translation.rs:42-72 [TranslationTarget] and [resolve]. *)
Inductive target := TLiteral (s : str) | TCapture | TSwap (sw : swapper).
Definition target_resolve (t : target) (capture : str) : target :=
  match t with
  | TLiteral s => TLiteral s
  | TCapture => TLiteral capture
  | TSwap sw => TLiteral (swap sw capture)
  end.
(** translation.rs:52-62 [to_string]: [unreachable!] unless literal. *)
Definition target_to_string (t : target) : res str :=
  match t with TLiteral s => Ok s | _ => Panic end.

(** translation.rs:166-193 [ResolvedTranslation]. *)
Record resolved := mk_resolved {
  r_input : str; r_output : str; r_length : nat; r_weight : nat; r_offset : nat;
  r_prec : precedence; r_stage : stage; r_effects : list effect; r_origin : origin }.

(** translation.rs:215-238 [ResolvedTranslation::new]. *)
Definition resolved_new (input output : str) (weight : nat) (st : stage) (o : origin) : resolved :=
  mk_resolved input output (length input) weight 0 PDefault st [] o.

(** translation.rs:276-309 the [with_*] updaters.  [with_input] is left out: it is called only
    where nothing but the presence of the result is looked at (nocontract.rs:126,
    lettersign.rs:220). *)
Definition with_weight (t : resolved) (w : nat) : resolved :=
  mk_resolved (r_input t) (r_output t) (r_length t) w (r_offset t) (r_prec t) (r_stage t)
              (r_effects t) (r_origin t).
Definition with_output (t : resolved) (o : str) : resolved :=
  mk_resolved (r_input t) o (r_length t) (r_weight t) (r_offset t) (r_prec t) (r_stage t)
              (r_effects t) (r_origin t).
Definition with_offset (t : resolved) (o : nat) : resolved :=
  mk_resolved (r_input t) (r_output t) (r_length t) (r_weight t) o (r_prec t) (r_stage t)
              (r_effects t) (r_origin t).
(** translation.rs:303-309: [usize] subtraction, the callers only use it when it
    does not underflow (checked in the loop model). *)
Definition decrement_offset (t : resolved) (d : nat) : resolved := with_offset t (r_offset t - d).

(** translation.rs:89-138 [UnresolvedTranslation] and its [resolve]. *)
Record unresolved := mk_unresolved {
  u_output : list target; u_prec : precedence; u_stage : stage;
  u_effects : list effect; u_origin : origin }.

Fixpoint targets_string (ts : list target) (capture : str) : res str :=
  match ts with
  | [] => Ok []
  | t :: r => do a <- target_to_string (target_resolve t capture);
              do b <- targets_string r capture; Ok (a ++ b)
  end.

Definition unresolved_resolve (u : unresolved) (capture : str) (weight offset : nat) : res resolved :=
  do s <- targets_string (u_output u) capture;
  Ok (mk_resolved capture s (length capture) weight offset (u_prec u) (u_stage u)
                  (u_effects u) (u_origin u)).

(** translation.rs:140-161 [Translation]. *)
Inductive translation := Resolved (t : resolved) | Unresolved (u : unresolved).
Definition translation_resolve (t : translation) (capture : str) (weight offset : nat) : res resolved :=
  match t with
  | Resolved t => Ok (with_offset (with_weight t weight) offset)
  | Unresolved u => unresolved_resolve u capture weight offset
  end.

(** translation.rs:195-213 [TranslationSubset]: the part of a translation that is
    hashed into the [seen] set. *)
Definition subset : Type := str * str * nat * nat.
Definition subset_of (t : resolved) : subset :=
  (r_input t, r_output t, r_length t, r_weight t).

(** lib.rs:101-115 [compute_output_positions]. *)
Fixpoint output_positions_from (off : nat) (ts : list resolved) : list nat :=
  match ts with
  | [] => []
  | t :: r =>
      let il := length (r_input t) in
      let ol := length (r_output t) in
      map (fun i => off + Nat.min i (ol - 1)) (seq 0 il) ++ output_positions_from (off + ol) r
  end.
Definition output_positions := output_positions_from 0.

(** lib.rs:117-131 [compute_input_positions]. *)
Fixpoint input_positions_from (off : nat) (ts : list resolved) : list nat :=
  match ts with
  | [] => []
  | t :: r =>
      let il := length (r_input t) in
      let ol := length (r_output t) in
      map (fun i => off + Nat.min i (il - 1)) (seq 0 ol) ++ input_positions_from (off + il) r
  end.
Definition input_positions := input_positions_from 0.
