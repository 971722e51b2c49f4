(** Consequences of [find_spec] used by the property theorems. *)
From Verif Require Import Base BaseProofs RegexpModel RegexpSpec RegexpCode RegexpVM RegexpCorrect.

(** ** Does the whole input match? *)

(** [r] followed by end of input *)
Definition whole (r : regexp) : regexp := RConcat r REndAnchor.

Definition finds lower env at_start r input : Prop :=
  exists f, regexp_find lower r env at_start input = Ok (Some f).

Lemma finds_iff lower env at_start r input :
  finds lower env at_start r input <->
  exists j c, Mat lower env at_start input (as_compiled r) 0 (0,0) j c.
Proof.
  destruct (find_spec lower env at_start r input) as (o & E & Ho). unfold finds. rewrite E. split.
  - intros (f & H). inversion H; subst. destruct Ho as (j & s & e & HM & _). eauto.
  - intros (j & c & HM). destruct o as [f|]; [eauto|]. exfalso. eapply Ho; eauto.
Qed.

(** ** Repetition of one character class *)

Section Rep.
Variables (lower : char -> list char) (env : N -> option N) (at_start : bool).
Variables (cs : list char) (input : str).
Hypothesis Ha : forall a, In a input -> mem a cs = true.
Notation Mat := (Mat lower env at_start input).

Lemma Mat_exactly_class n i c j c' :
  Mat (RRepeatExactly n (RClass cs)) i c j c' -> j = i + n /\ c' = c.
Proof.
  revert i c; induction n as [|n IH]; intros i c H; inversion H; subst; [split; [lia|reflexivity]|].
  match goal with H : Mat (RClass cs) _ _ _ _ |- _ => inversion H; subst end.
  match goal with H : Mat (RRepeatExactly n _) _ _ _ _ |- _ => apply IH in H; destruct H end.
  split; auto; lia.
Qed.

Lemma Mat_exactly_class_intro n i c : i + n <= length input ->
  Mat (RRepeatExactly n (RClass cs)) i c (i + n) c.
Proof.
  revert i; induction n as [|n IH]; intros i H.
  - rewrite Nat.add_0_r. constructor.
  - replace (i + S n) with (S i + n) by lia. eapply M_exactly_S; [|apply IH; lia].
    constructor. destruct (nth_error input i) as [a|] eqn:E; [|apply nth_error_None in E; lia].
    exists a. split; [exact E|]. apply Ha. eapply nth_error_In, E.
Qed.

Lemma Mat_star_block d i c j c' :
  Mat (RZeroOrMore (RRepeatExactly d (RClass cs))) i c j c' -> exists b, j = i + b * d.
Proof.
  intros H. inversion H; subst.
  match goal with H : Mat (RRepeatExactly ?n (RRepeatExactly d _)) _ _ _ _ |- _ =>
    clear - H; revert i c H; induction n as [|n IH]; intros i c H; inversion H; subst end.
  - exists 0; lia.
  - match goal with H : Mat (RRepeatExactly d _) _ _ _ _ |- _ => apply Mat_exactly_class in H; destruct H; subst end.
    match goal with H : Mat (RRepeatExactly n _) _ _ _ _ |- _ => apply IH in H; destruct H as (b & ->) end.
    exists (S b). lia.
Qed.

Lemma Mat_star_block_intro d b i c : i + b * d <= length input ->
  Mat (RZeroOrMore (RRepeatExactly d (RClass cs))) i c (i + b * d) c.
Proof.
  intros H. apply (M_star _ _ _ _ _ b). revert i H. induction b as [|b IH]; intros i H.
  - simpl. rewrite Nat.add_0_r. constructor.
  - replace (i + S b * d) with (i + d + b * d) by lia.
    eapply M_exactly_S; [apply Mat_exactly_class_intro; lia|]. apply IH. lia.
Qed.

Lemma range_reps n m :
  finds lower env at_start (whole (RRepeatAtLeastAtMost n m (RClass cs))) input <->
  exists b, length input = n + b * (m - n).
Proof.
  rewrite finds_iff. cbn [as_compiled whole]. split.
  - intros (j & c & H). inversion H; subst.
    match goal with H : Mat REndAnchor _ _ _ _ |- _ => inversion H; subst end.
    match goal with H : Mat (RConcat _ _) _ _ _ _ |- _ =>
      match type of H with Mat (RConcat (RRepeatExactly _ _) _) _ _ _ _ => inversion H; subst end end.
    match goal with H : Mat (RRepeatExactly n _) _ _ _ _ |- _ => apply Mat_exactly_class in H; destruct H; subst end.
    match goal with H : Mat (RZeroOrMore _) _ _ _ _ |- _ => apply Mat_star_block in H; destruct H as (b & Hb) end.
    exists b. lia.
  - intros (b & Hb). exists (length input), (0, 0).
    eapply M_concat; [|constructor; reflexivity].
    eapply M_concat.
    + apply (Mat_exactly_class_intro n 0). lia.
    + simpl. pose proof (Mat_star_block_intro (m - n) b n (0,0)) as Hs.
      rewrite <- Hb in Hs. apply Hs. lia.
Qed.

Lemma exactly_reps n :
  finds lower env at_start (whole (RRepeatExactly n (RClass cs))) input <-> length input = n.
Proof.
  rewrite finds_iff. cbn [as_compiled whole]. split.
  - intros (j & c & H). inversion H; subst.
    match goal with H : Mat REndAnchor _ _ _ _ |- _ => inversion H; subst end.
    match goal with H : Mat (RRepeatExactly n _) _ _ _ _ |- _ => apply Mat_exactly_class in H; destruct H as [H _] end.
    lia.
  - intros <-. exists (length input), (0, 0).
    eapply M_concat; [|constructor; reflexivity].
    apply (Mat_exactly_class_intro (length input) 0). lia.
Qed.

Lemma plus_reps :
  finds lower env at_start (whole (ROneOrMore (RClass cs))) input <-> 1 <= length input.
Proof.
  rewrite finds_iff. cbn [as_compiled whole]. split.
  - intros (j & c & H). inversion H; subst.
    match goal with H : Mat REndAnchor _ _ _ _ |- _ => inversion H; subst end.
    match goal with H : Mat (ROneOrMore _) _ _ _ _ |- _ => inversion H; subst end.
    match goal with H : Mat (RRepeatExactly _ _) _ _ _ _ |- _ => apply Mat_exactly_class in H; destruct H as [H _] end.
    lia.
  - intros Hk. exists (length input), (0, 0).
    eapply M_concat; [|constructor; reflexivity].
    apply (M_plus _ _ _ _ _ (length input - 1)). replace (S (length input - 1)) with (length input) by lia. apply (Mat_exactly_class_intro (length input) 0). lia.
Qed.
End Rep.

(** ** Negation *)

Section Neg.
Variables (lower : char -> list char) (env : N -> option N) (at_start : bool) (input : str).
Notation Mat := (Mat lower env at_start input).

Lemma negate_class cs r' : negate (RClass cs) = Some r' ->
  forall i c j c', Mat r' i c j c' <->
    (exists a, nth_error input i = Some a /\ mem a cs = false /\ j = S i /\ c' = c).
Proof.
  intros E i c j c'. inversion E; subst. split.
  - intros H; inversion H; subst.
    match goal with H : char_ok _ _ _ |- _ => destruct H as (a & Ha & Hn) end.
    exists a. rewrite negb_true_iff in Hn. auto.
  - intros (a & Ha & Hn & -> & ->). constructor. exists a. rewrite Hn. auto.
Qed.

Lemma negate_zero_width r r' :
  r = REndAnchor \/ r = RNotEndAnchor \/ r = RStartAnchor \/ r = RNotStartAnchor \/ r = REmpty \/ r = RNever ->
  negate r = Some r' ->
  forall i c j c', Mat r' i c j c' <-> (~ Mat r i c i c /\ j = i /\ c' = c).
Proof.
  intros Hr E i c j c'.
  assert (Dend : {i = length input} + {i <> length input}) by apply Nat.eq_dec.
  assert (Dst : {at_start = true /\ i = 0} + {~ (at_start = true /\ i = 0)}).
  { destruct at_start; [|right; intros [? _]; discriminate].
    destruct (Nat.eq_dec i 0); [left; auto|right; intros [_ ?]; auto]. }
  destruct Hr as [->|[->|[->|[->|[->| ->]]]]]; inversion E; subst; (split;
    [intros H; inversion H; subst; split; auto; intros H'; inversion H'; subst; auto
    |intros (H & -> & ->)]).
  - constructor. intros Hi. apply H. constructor. exact Hi.
  - constructor. destruct Dend; auto. exfalso. apply H. constructor. auto.
  - constructor. intros Hs. apply H. constructor. exact Hs.
  - constructor. destruct Dst; auto. exfalso. apply H. constructor. auto.
  - exfalso. apply H. constructor.
  - constructor.
Qed.

Notation Neg := (Neg lower env at_start input).
Lemma negate_exactly n a a' : (forall i c j c', Mat a' i c j c' <-> Neg a i c j c') ->
  forall i c j c', Mat (RRepeatExactly n a') i c j c' <-> Neg (RRepeatExactly n a) i c j c'.
Proof.
  intros IH. induction n as [|n IHn]; intros i c j c'; split; intros H; inversion H; subst;
    try (match goal with Z : zero_width _ |- _ => destruct Z end); try apply N_exactly_0; try apply M_exactly_0.
  - eapply N_exactly_S; [apply IH; eassumption|apply IHn; eassumption].
  - eapply M_exactly_S; [apply IH; eassumption|apply IHn; eassumption].
Qed.
Lemma negate_zero r r' : zero_width r -> negate r = Some r' -> forall i c j c', Mat r' i c j c' <-> Neg r i c j c'.
Proof.
  intros Z E i c j c'. rewrite (negate_zero_width r r'); [|destruct r; try destruct Z; auto 10|exact E]. split.
  - intros (H & -> & ->). apply N_zero; assumption.
  - intros H. destruct r; try (destruct Z; fail); inversion H; subst; auto.
Qed.
Lemma negate_sem r : forall r', negate r = Some r' ->
  forall i c j c', Mat r' i c j c' <-> Neg r i c j c'.
Proof.
  induction r; intros r' E; try (apply negate_zero; [exact I|exact E]); cbn [negate] in E;
    try (destruct (negate r) as [a|]; [|discriminate E]; cbn [option_map] in E; specialize (IHr _ eq_refl));
    try (destruct (negate r1) as [a1|]; [|discriminate E]; destruct (negate r2) as [a2|]; [|discriminate E];
         specialize (IHr1 _ eq_refl); specialize (IHr2 _ eq_refl));
    try discriminate E; injection E as <-; intros i c j c';
    try (pose proof (fun n => negate_exactly n _ _ IHr) as IHn);
    (split; intros H; inversion H; subst; try (match goal with Z : zero_width _ |- _ => destruct Z; fail end)).
  all: try (first [eapply N_class|eapply N_string|eapply N_vareq|eapply N_concat|eapply N_left; apply IHr1; eassumption|eapply N_right|
      eapply N_opt_some; apply IHr; eassumption|eapply N_opt_none|eapply N_star|eapply N_plus|eapply N_atleast|eapply N_between|eapply N_group|
      eapply M_left; apply IHr1; eassumption|eapply M_right; apply IHr2; eassumption|econstructor];
    first [eassumption|apply IHr; eassumption|apply IHr1; eassumption|apply IHr2; eassumption|apply IHn; eassumption]; fail).
  - match goal with A : atom_var_ne _ _ _ |- _ => destruct A as (y & Hy & Ny) end. eapply N_vareq; eauto.
  - apply M_varne. eexists; eauto.
Qed.
Lemma negate_any r' : negate RAny = Some r' -> forall i c j c', ~ Mat r' i c j c'.
Proof. intros E i c j c' H. inversion E; subst. inversion H. Qed.

Lemma chars_ok_forall (p : char -> char -> bool) s i :
  chars_ok input (map p s) i <->
  forall k e, nth_error s k = Some e -> exists a, nth_error input (i + k) = Some a /\ p e a = true.
Proof.
  revert i; induction s as [|x s IH]; intros i; simpl.
  - split; auto. intros _ [|k] e H; discriminate.
  - rewrite IH. split.
    + intros [(a & Ha & Hp) H] [|k] e He; simpl in He.
      * inversion He; subst. exists a. rewrite Nat.add_0_r. auto.
      * replace (i + S k) with (S i + k) by lia. eauto.
    + intros H. split.
      * destruct (H 0 x eq_refl) as (a & Ha & Hp). rewrite Nat.add_0_r in Ha. exists a; auto.
      * intros k e He. replace (S i + k) with (i + S k) by lia. apply (H (S k) e He).
Qed.

(** a negated string matches iff every character differs from its counterpart *)
Lemma negate_string s r' : negate (RString s) = Some r' ->
  forall i c j c', Mat r' i c j c' <->
    ((forall k e, nth_error s k = Some e -> exists a, nth_error input (i + k) = Some a /\ a <> e)
     /\ j = i + length s /\ c' = c).
Proof.
  intros E i c j c'. inversion E; subst. split.
  - intros H; inversion H; subst. split; auto. intros k e He.
    match goal with H : chars_ok _ _ _ |- _ => rewrite (chars_ok_forall (fun e a => negb (N.eqb e a))) in H;
      destruct (H k e He) as (a & Ha & Hn) end.
    exists a. split; auto. apply negb_true_iff, N.eqb_neq in Hn. auto.
  - intros (H & -> & ->). constructor. apply (chars_ok_forall (fun e a => negb (N.eqb e a))).
    intros k e He. destruct (H k e He) as (a & Ha & Hn). exists a. split; auto.
    apply negb_true_iff, N.eqb_neq. auto.
Qed.
End Neg.

(** ** Visits per position *)
Section Visits.
Variables (env : N -> option N) (at_start : bool).
Variable r : regexp.
Variable input : str.
Notation prog := (fst (compile r)).

(** Starting from a duplicate free list of visited instructions, adding a
    thread never needs more fuel than there are instructions, never panics and
    visits no instruction that was visited before at this position. *)
Lemma add_visits (tl : tlist) (pc i : nat) (c : span) :
  i <= length input ->
  NoDup (snd tl) -> (forall p, In p (snd tl) -> p < length prog) -> pc < length prog ->
  exists tl', add_thread env at_start prog (at_fuel prog) tl pc (bcap input c) (boff input i) (blen input) = Ok tl' /\
    NoDup (snd tl') /\ incl (snd tl) (snd tl') /\ (forall p, In p (snd tl') -> p < length prog) /\
    length (snd tl') <= length prog.
Proof.
  intros Hi Hn Hr Hpc.
  destruct (addt_total env at_start prog (snd (compile r)) input (compile_wf r) tl i (pc, c) Hi (conj Hn Hr) Hpc)
    as (tl' & E & (H1 & H2 & _)).
  exists tl'. split; [exact E|]. split; [apply H1|]. split; [exact H2|]. split; [apply H1|].
  eapply seen_ok_len; eauto.
Qed.
End Visits.

Lemma find_total lower env at_start r input :
  exists o, regexp_find lower r env at_start input = Ok o /\
    match o with
    | None => True
    | Some f => f_offset f + length (f_capture f) <= f_length f /\ f_length f <= length input /\
                f_capture f = firstn (length (f_capture f)) (skipn (f_offset f) input)
    end.
Proof.
  destruct (find_spec lower env at_start r input) as (o & E & H). exists o. split; [exact E|].
  destruct o as [f|]; [|exact I]. destruct H as (j & s & e & _ & H1 & H2 & H3 & ->).
  unfold report. cbn [f_capture f_length f_offset].
  rewrite firstn_length, skipn_length.
  split; [lia|]. split; [exact H3|]. f_equal. lia.
Qed.

(** ** Witnesses *)
Definition w_lower (c : char) : list char := [c].
Definition w_env (v : N) : option N := None.

Lemma range_too_many : exists lower env at_start n m cs a k, mem a cs = true /\ n <= m /\ m < k /\
    finds lower env at_start (whole (RRepeatAtLeastAtMost n m (RClass cs))) (repeat a k).
Proof.
  exists w_lower, w_env, true, 2, 3, [97%N], 97%N, 4. split; [reflexivity|]. split; [lia|]. split; [lia|].
  apply range_reps; [intros c Hc; apply repeat_spec in Hc; subst; reflexivity|]. exists 2. reflexivity.
Qed.

Lemma range_too_few : exists lower env at_start n m cs a k, mem a cs = true /\ n <= k /\ k <= m /\
    ~ finds lower env at_start (whole (RRepeatAtLeastAtMost n m (RClass cs))) (repeat a k).
Proof.
  exists w_lower, w_env, true, 3, 5, [97%N], 97%N, 4. split; [reflexivity|]. split; [lia|]. split; [lia|].
  rewrite range_reps by (intros c Hc; apply repeat_spec in Hc; subst; reflexivity). intros (b & Hb). simpl in Hb. lia.
Qed.

Lemma neg_string_bad : exists lower env at_start s input r',
    negate (RString s) = Some r' /\ length input = length s /\ input <> s /\
    regexp_find lower r' env at_start input = Ok None.
Proof.
  exists w_lower, w_env, true, [97;98]%N, [97;99]%N, (RNotString [97;98]%N).
  split; [reflexivity|]. split; [reflexivity|]. split; [discriminate|]. vm_compute. reflexivity.
Qed.

Lemma neg_either_bad : exists lower env at_start a b input r',
    negate (REither (RClass [a]) (RClass [b])) = Some r' /\
    (exists f, regexp_find lower (REither (RClass [a]) (RClass [b])) env at_start input = Ok (Some f)) /\
    (exists f, regexp_find lower r' env at_start input = Ok (Some f)).
Proof.
  exists w_lower, w_env, true, 97%N, 98%N, [97%N], (REither (RNotClass [97%N]) (RNotClass [98%N])).
  split; [reflexivity|]. split; eexists; vm_compute; reflexivity.
Qed.
