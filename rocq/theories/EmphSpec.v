(** What the emphasis signs of a text are meant to be. *)
From Coq Require Import Permutation Sorted.
From Verif Require Import Base RuleModel TranslationModel TableModel ConstraintModel IndicatorModel.

(** the maximal stretches of positions with [P] between [a] and [b] *)
Inductive runs_in (P : nat -> Prop) : nat -> nat -> list (nat * nat) -> Prop :=
| RI_none a b : a <= b -> (forall q, a <= q < b -> ~ P q) -> runs_in P a b []
| RI_run a b s e ws : a <= s -> s < e -> e <= b -> (forall q, a <= q < s -> ~ P q) ->
    (forall q, s <= q < e -> P q) -> e = b \/ ~ P e -> runs_in P e b ws -> runs_in P a b ((s, e) :: ws).

Section Class.
Variable u : emph_class.
Variable chars : str.
Variable spans : list span.
(** the caller asked for the emphasis at [p], and the character there can carry it *)
Definition emphasized (p : nat) : Prop :=
  exists c, nth_error chars p = Some c /\ ~ In c (em_no u) /\
  exists s, In s spans /\ sp_class s = em_name u /\ sp_start s <= p < sp_end s.
(** a separator of words: an emphmodechar if there are any, else a space *)
Definition separator (p : nat) : Prop :=
  exists c, nth_error chars p = Some c /\
    (if is_empty (em_mode u) then cls_is_whitespace (em_classes u) c = true else In c (em_mode u)).
Definition emph_run (a b : nat) : Prop :=
  a < b /\ b <= length chars /\ (forall p, a <= p < b -> emphasized p) /\ ~ emphasized b /\
  (a = 0 \/ ~ emphasized (a - 1)).
(** where the text of a run starts and stops, without separators at its ends *)
Definition run_starts (a b f : nat) : Prop :=
  (a <= f < b /\ ~ separator f /\ forall q, a <= q < f -> separator q) \/
  (f = a /\ forall q, a <= q < b -> separator q).
Definition run_stops (a b z : nat) : Prop :=
  (a < z <= b /\ ~ separator (z - 1) /\ forall q, z <= q < b -> separator q) \/
  (z = b /\ forall q, a <= q < b -> separator q).
End Class.

(** the event of [begemph] and of [endemph] *)
Definition opens (e : event) : Prop := match ev_kind e with KOpen _ => True | _ => False end.
Definition closes (e : event) : Prop := match ev_kind e with KClose _ => True | _ => False end.
Definition plain (e : event) : Prop := match ev_kind e with KUnordered => True | _ => False end.
(** signs of only one kind stand at [p] *)
Definition one_kind (l : list event) (p : nat) : Prop :=
  let at_p := filter (fun e => Nat.eqb (ev_pos e) p) l in
  Forall opens at_p \/ Forall closes at_p \/ Forall plain at_p.
(** [before a b l]: [a] stands somewhere before [b] in [l] *)
Definition before {A} (a b : A) (l : list A) : Prop := exists x y z, l = x ++ a :: y ++ b :: z.
(** the documented order of two signs at one position *)
Definition in_order (a b : event) : Prop :=
  match ev_kind a, ev_kind b with
  | KOpen ra, KOpen rb => rb < ra \/ (ra = rb /\ ev_class b <= ev_class a)
  | KClose sa, KClose sb => sb < sa \/ (sa = sb /\ ev_class a <= ev_class b)
  | _, _ => True
  end.

(** What the library promises of [slice::sort_by]: if the comparison is an order on the
    elements, the result is a sorted rearrangement. *)
Definition consistent (l : list event) : Prop := forall a b c, In a l -> In b l -> In c l ->
  event_less b a = false -> event_less c b = false -> event_less c a = false.
Definition sort_correct (sort : list event -> res (list event)) : Prop := forall l, consistent l ->
  exists l', sort l = Ok l' /\ Permutation l l' /\ StronglySorted (fun a b => event_less b a = false) l'.
(** and in any case it rearranges, or panics *)
Definition sort_rearranges (sort : list event -> res (list event)) : Prop := forall l l',
  sort l = Ok l' -> Permutation l l'.
