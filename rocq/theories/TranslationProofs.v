(** Lemmas about TranslationModel.v. *)
From Verif Require Import Base BaseProofs TranslationModel.

Definition in_text (ts : list resolved) : str := flat_map r_input ts.
Definition out_text (ts : list resolved) : str := flat_map r_output ts.

Lemma opos_len off ts : length (output_positions_from off ts) = length (in_text ts).
Proof.
  revert off; induction ts as [|t r IH]; intros; simpl; auto.
  rewrite !app_length, map_length, seq_length, IH. reflexivity.
Qed.
Lemma ipos_len off ts : length (input_positions_from off ts) = length (out_text ts).
Proof.
  revert off; induction ts as [|t r IH]; intros; simpl; auto.
  rewrite !app_length, map_length, seq_length, IH. reflexivity.
Qed.

Lemma nth_error_map_seq (f : nat -> nat) n i : i < n ->
  nth_error (map f (seq 0 n)) i = Some (f i).
Proof.
  intros. erewrite map_nth_error; [reflexivity|].
  rewrite nth_error_nth' with (d := 0) by (rewrite seq_length; lia).
  rewrite seq_nth by lia. reflexivity.
Qed.

Lemma opos_piece off a t b i : i < length (r_input t) ->
  nth_error (output_positions_from off (a ++ t :: b)) (length (in_text a) + i) =
  Some (off + length (out_text a) + Nat.min i (length (r_output t) - 1)).
Proof.
  revert off; induction a as [|x r IH]; intros off H; simpl.
  - rewrite nth_error_app1 by (rewrite map_length, seq_length; lia).
    rewrite nth_error_map_seq by lia. f_equal. lia.
  - rewrite nth_error_app2 by (rewrite map_length, seq_length, app_length; lia).
    rewrite map_length, seq_length, !app_length.
    match goal with |- nth_error _ ?k = _ => replace k with (length (in_text r) + i)
      by (unfold in_text; lia) end.
    etransitivity; [apply (IH (off + length (r_output x)))|]; [lia|]. f_equal. unfold out_text. lia.
Qed.
Lemma ipos_piece off a t b i : i < length (r_output t) ->
  nth_error (input_positions_from off (a ++ t :: b)) (length (out_text a) + i) =
  Some (off + length (in_text a) + Nat.min i (length (r_input t) - 1)).
Proof.
  revert off; induction a as [|x r IH]; intros off H; simpl.
  - rewrite nth_error_app1 by (rewrite map_length, seq_length; lia).
    rewrite nth_error_map_seq by lia. f_equal. lia.
  - rewrite nth_error_app2 by (rewrite map_length, seq_length, app_length; lia).
    rewrite map_length, seq_length, !app_length.
    match goal with |- nth_error _ ?k = _ => replace k with (length (out_text r) + i)
      by (unfold out_text; lia) end.
    etransitivity; [apply (IH (off + length (r_input x)))|]; [lia|]. f_equal. unfold in_text. lia.
Qed.

(** every index of a concatenation lies in one of the pieces *)
Lemma flat_map_split {A B} (f : A -> list B) l k :
  k < length (flat_map f l) ->
  exists a x b i, l = a ++ x :: b /\ i < length (f x) /\ k = length (flat_map f a) + i.
Proof.
  revert k; induction l as [|y r IH]; simpl; intros k H; [lia|].
  rewrite app_length in H. destruct (Nat.lt_ge_cases k (length (f y))).
  - exists [], y, r, k. repeat split; auto.
  - destruct (IH (k - length (f y))) as (a & x & b & i & -> & Hi & Hk); [lia|].
    exists (y :: a), x, b, i. repeat split; auto. simpl. rewrite app_length. lia.
Qed.

Lemma flat_map_len_app {A B} (f : A -> list B) a b :
  length (flat_map f (a ++ b)) = length (flat_map f a) + length (flat_map f b).
Proof. rewrite flat_map_app, app_length. reflexivity. Qed.

(** lower bound of every entry *)
Lemma opos_ge off ts p : In p (output_positions_from off ts) -> off <= p <= off + length (out_text ts).
Proof.
  revert off; induction ts as [|t r IH]; simpl; intros off H; [tauto|].
  apply in_app_or in H as [H|H].
  - apply in_map_iff in H as (i & <- & Hi). unfold out_text. simpl. rewrite app_length.
    assert (Nat.min i (length (r_output t) - 1) <= length (r_output t)) by lia. lia.
  - apply IH in H. unfold out_text in *. simpl. rewrite app_length. lia.
Qed.
Lemma ipos_ge off ts p : In p (input_positions_from off ts) -> off <= p <= off + length (in_text ts).
Proof.
  revert off; induction ts as [|t r IH]; simpl; intros off H; [tauto|].
  apply in_app_or in H as [H|H].
  - apply in_map_iff in H as (i & <- & Hi). unfold in_text. simpl. rewrite app_length. lia.
  - apply IH in H. unfold in_text in *. simpl. rewrite app_length. lia.
Qed.

Lemma opos_mono off ts i j x y : i <= j ->
  nth_error (output_positions_from off ts) i = Some x ->
  nth_error (output_positions_from off ts) j = Some y -> x <= y.
Proof.
  revert off i j; induction ts as [|t r IH]; intros off i j Hij Hx Hy; simpl in *.
  - destruct i; discriminate.
  - set (f := fun i0 => off + Nat.min i0 (length (r_output t) - 1)) in *.
    destruct (Nat.lt_ge_cases i (length (r_input t))) as [Hi|Hi].
    + rewrite nth_error_app1 in Hx by (rewrite map_length, seq_length; lia).
      rewrite nth_error_map_seq in Hx by lia. inversion Hx; subst x.
      destruct (Nat.lt_ge_cases j (length (r_input t))) as [Hj|Hj].
      * rewrite nth_error_app1 in Hy by (rewrite map_length, seq_length; lia).
        rewrite nth_error_map_seq in Hy by lia. inversion Hy; subst y. unfold f. lia.
      * rewrite nth_error_app2 in Hy by (rewrite map_length, seq_length; lia).
        apply nth_error_In in Hy. apply opos_ge in Hy. unfold f. lia.
    + rewrite nth_error_app2 in Hx, Hy by (rewrite map_length, seq_length; lia).
      rewrite map_length, seq_length in Hx, Hy. eapply IH; [|exact Hx|exact Hy]. lia.
Qed.
Lemma ipos_mono off ts i j x y : i <= j ->
  nth_error (input_positions_from off ts) i = Some x ->
  nth_error (input_positions_from off ts) j = Some y -> x <= y.
Proof.
  revert off i j; induction ts as [|t r IH]; intros off i j Hij Hx Hy; simpl in *.
  - destruct i; discriminate.
  - set (f := fun i0 => off + Nat.min i0 (length (r_input t) - 1)) in *.
    destruct (Nat.lt_ge_cases i (length (r_output t))) as [Hi|Hi].
    + rewrite nth_error_app1 in Hx by (rewrite map_length, seq_length; lia).
      rewrite nth_error_map_seq in Hx by lia. inversion Hx; subst x.
      destruct (Nat.lt_ge_cases j (length (r_output t))) as [Hj|Hj].
      * rewrite nth_error_app1 in Hy by (rewrite map_length, seq_length; lia).
        rewrite nth_error_map_seq in Hy by lia. inversion Hy; subst y. unfold f. lia.
      * rewrite nth_error_app2 in Hy by (rewrite map_length, seq_length; lia).
        apply nth_error_In in Hy. apply ipos_ge in Hy. unfold f. lia.
    + rewrite nth_error_app2 in Hx, Hy by (rewrite map_length, seq_length; lia).
      rewrite map_length, seq_length in Hx, Hy. eapply IH; [|exact Hx|exact Hy]. lia.
Qed.

(** The piece (given by the pieces before it) that holds the character with index [k]
    of the text concatenated by [f]. *)
Definition piece_at {A B} (f : A -> list B) (l a : list A) (x : A) (k : nat) : Prop :=
  exists b i, l = a ++ x :: b /\ i < length (f x) /\ k = length (flat_map f a) + i.

Theorem output_positions_spec ts :
  length (output_positions ts) = length (in_text ts) /\
  (forall i j x y, i <= j -> nth_error (output_positions ts) i = Some x ->
     nth_error (output_positions ts) j = Some y -> x <= y) /\
  (forall k p, nth_error (output_positions ts) k = Some p ->
     p <= length (out_text ts) /\
     exists a t, piece_at r_input ts a t k /\
       (r_output t <> [] -> piece_at r_output ts a t p) /\
       (r_output t = [] -> p = length (out_text a))).
Proof.
  split; [apply opos_len|split].
  - intros; eapply opos_mono; eauto.
  - intros k p Hp.
    assert (Hk : k < length (in_text ts)).
    { rewrite <- (opos_len 0 ts). apply nth_error_Some. unfold output_positions in Hp. congruence. }
    split. { apply nth_error_In in Hp. apply opos_ge in Hp. lia. }
    destruct (flat_map_split r_input ts k Hk) as (a & t & b & i & -> & Hi & ->).
    unfold output_positions in Hp. fold (in_text a) in Hp. rewrite opos_piece in Hp by auto. inversion Hp; subst p.
    exists a, t. split; [exists b, i; auto|]. split.
    + intros Hne. exists b, (Nat.min i (length (r_output t) - 1)).
      destruct (r_output t); [congruence|]. simpl. repeat split; auto; lia.
    + intros He. rewrite He. simpl. lia.
Qed.

Theorem input_positions_spec ts :
  length (input_positions ts) = length (out_text ts) /\
  (forall i j x y, i <= j -> nth_error (input_positions ts) i = Some x ->
     nth_error (input_positions ts) j = Some y -> x <= y) /\
  (forall k p, nth_error (input_positions ts) k = Some p ->
     p <= length (in_text ts) /\
     exists a t, piece_at r_output ts a t k /\
       (r_input t <> [] -> piece_at r_input ts a t p) /\
       (r_input t = [] -> p = length (in_text a))).
Proof.
  split; [apply ipos_len|split].
  - intros; eapply ipos_mono; eauto.
  - intros k p Hp.
    assert (Hk : k < length (out_text ts)).
    { rewrite <- (ipos_len 0 ts). apply nth_error_Some. unfold input_positions in Hp. congruence. }
    split. { apply nth_error_In in Hp. apply ipos_ge in Hp. lia. }
    destruct (flat_map_split r_output ts k Hk) as (a & t & b & i & -> & Hi & ->).
    unfold input_positions in Hp. fold (out_text a) in Hp. rewrite ipos_piece in Hp by auto. inversion Hp; subst p.
    exists a, t. split; [exists b, i; auto|]. split.
    + intros Hne. exists b, (Nat.min i (length (r_input t) - 1)).
      destruct (r_input t); [congruence|]. simpl. repeat split; auto; lia.
    + intros He. rewrite He. simpl. lia.
Qed.

(** swap *)
Lemma swap_app sw a b : swap sw (a ++ b) = swap sw a ++ swap sw b.
Proof. apply flat_map_app. Qed.

Lemma assoc_app {A} k (l m : list (N * A)) :
  assoc k (l ++ m) = match assoc k l with Some v => Some v | None => assoc k m end.
Proof. induction l as [|[k' v] r IH]; simpl; auto. destruct (N.eqb k k'); auto. Qed.

Lemma assoc_None {A} k (l : list (N * A)) : assoc k l = None <-> forall v, ~ In (k, v) l.
Proof.
  induction l as [|[k' v'] r IH]; simpl; [firstorder|].
  destruct (N.eqb_spec k k').
  - subst. split; [discriminate|]. intros H. exfalso. apply (H v'). auto.
  - rewrite IH. split; intros H v; [intros [E|E]; [congruence|eapply H; eauto]|].
    intros E. apply (H v). auto.
Qed.
Lemma assoc_In {A} k v (l : list (N * A)) : assoc k l = Some v -> In (k, v) l.
Proof.
  induction l as [|[k' v'] r IH]; simpl; [discriminate|].
  destruct (N.eqb_spec k k'); [intros H; inversion H; subst; auto|auto].
Qed.

(** [last_of l k v]: the last pair of [l] with key [k] has value [v]. *)
Definition last_of {A} (l : list (N * A)) (k : N) (v : A) : Prop :=
  exists a b, l = a ++ (k, v) :: b /\ forall w, ~ In (k, w) b.
(** [first_of l k v]: the first pair of [l] with key [k] has value [v]. *)
Definition first_of {A} (l : list (N * A)) (k : N) (v : A) : Prop :=
  exists a b, l = a ++ (k, v) :: b /\ forall w, ~ In (k, w) a.

Lemma assoc_first {A} (l : list (N * A)) k v : assoc k l = Some v <-> first_of l k v.
Proof.
  split.
  - induction l as [|[k' v'] r IH]; simpl; [discriminate|]. destruct (N.eqb_spec k k').
    + intros H; inversion H; subst. exists [], r. split; auto.
    + intros H. destruct (IH H) as (a & b & -> & Ha). exists ((k', v') :: a), b. split; auto.
      intros w [E|E]; [congruence|]. eapply Ha; eauto.
  - intros (a & b & -> & Ha). rewrite assoc_app.
    replace (assoc k a) with (@None A) by (symmetry; apply assoc_None; auto).
    simpl. rewrite N.eqb_refl. reflexivity.
Qed.
Lemma first_rev {A} (l : list (N * A)) k v : first_of (rev l) k v <-> last_of l k v.
Proof.
  split; intros (a & b & E & H).
  - exists (rev b), (rev a). split.
    + rewrite <- (rev_involutive l), E, rev_app_distr. simpl. rewrite <- app_assoc. reflexivity.
    + intros w Hw. apply in_rev in Hw. eapply H; eauto.
  - exists (rev b), (rev a). split.
    + rewrite E, rev_app_distr. simpl. rewrite <- app_assoc. reflexivity.
    + intros w Hw. apply in_rev in Hw. eapply H; eauto.
Qed.
Lemma assoc_rev_last {A} (l : list (N * A)) k v : assoc k (rev l) = Some v <-> last_of l k v.
Proof. rewrite assoc_first. apply first_rev. Qed.

(** One character swapped by a list of mappings: its last mapping, or itself. *)
Definition swaps_to (m : list (char * str)) (c : char) (s : str) : Prop :=
  last_of m c s \/ ((forall w, ~ In (c, w) m) /\ s = [c]).

Lemma swap_spec m input :
  exists pieces, Forall2 (swaps_to m) input pieces /\ swap (swapper_new m) input = concat pieces.
Proof.
  induction input as [|c r (ps & HF & E)].
  - exists []. split; constructor.
  - unfold swap, swapper_new in *. simpl. rewrite E.
    destruct (assoc c (rev m)) as [s|] eqn:A.
    + exists (s :: ps). split; [constructor; auto|reflexivity]. left. apply assoc_rev_last. auto.
    + exists ([c] :: ps). split; [constructor; auto|reflexivity]. right. split; auto.
      intros w Hw. apply (proj1 (assoc_None c (rev m)) A w). apply -> in_rev. auto.
Qed.

(** targets *)
Lemma targets_ok ts capture :
  targets_string ts capture =
  Ok (flat_map (fun t => match t with TLiteral s => s | TCapture => capture
                                    | TSwap sw => swap sw capture end) ts).
Proof.
  induction ts as [|t r IH]; simpl; auto. destruct t; simpl; rewrite IH; reflexivity.
Qed.

Lemma unresolved_resolve_ok u capture w o :
  exists t, unresolved_resolve u capture w o = Ok t /\
    r_input t = capture /\ r_length t = length capture /\ r_weight t = w /\ r_offset t = o /\
    r_effects t = u_effects u /\ r_stage t = u_stage u /\ r_origin t = u_origin u /\
    r_prec t = u_prec u /\
    r_output t = flat_map (fun t => match t with TLiteral s => s | TCapture => capture
                                    | TSwap sw => swap sw capture end) (u_output u).
Proof.
  unfold unresolved_resolve. rewrite targets_ok. simpl. eexists; split; [reflexivity|].
  simpl. repeat split; reflexivity.
Qed.

(** environment *)
Lemma env_set_get e s v e' : env_apply e (effect_new s v) = Ok e' ->
  env_get e' s = Some v /\ forall s', s' <> s -> env_get e' s' = env_get e s'.
Proof.
  intros H; inversion H; subst. unfold env_get. simpl. rewrite N.eqb_refl. split; auto.
  intros s' Hs. apply N.eqb_neq in Hs. rewrite Hs. reflexivity.
Qed.

Lemma env_sets e (sets : list (N * N)) :
  exists e', env_apply_all e (map (fun p => effect_new (fst p) (snd p)) sets) = Ok e' /\
    (forall s v, last_of sets s v -> env_get e' s = Some v) /\
    (forall s, (forall v, ~ In (s, v) sets) -> env_get e' s = env_get e s).
Proof.
  revert e; induction sets as [|[s0 v0] r IH]; intros e; simpl.
  - exists e. split; auto. split; auto. intros s v (a & b & E & _). destruct a; discriminate.
  - destruct (IH ((s0, v0) :: e)) as (e' & E & H1 & H2). exists e'. split; auto. split.
    + intros s v (a & b & Ea & Hb). destruct a as [|x a]; simpl in Ea; inversion Ea; subst.
      * rewrite H2 by auto. unfold env_get. simpl. rewrite N.eqb_refl. reflexivity.
      * apply H1. exists a, b. auto.
    + intros s Hs. rewrite H2 by (intros v Hv; apply (Hs v); auto).
      unfold env_get. simpl. destruct (N.eqb_spec s s0); auto. subst. exfalso. apply (Hs v0). auto.
Qed.
