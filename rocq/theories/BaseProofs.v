(** Lemmas about byte offsets and slicing. *)
From Verif Require Import Base.

Lemma len_utf8_pos c : 0 < len_utf8 c.
Proof. unfold len_utf8. destruct (N.ltb c 128), (N.ltb c 2048), (N.ltb c 65536); lia. Qed.

Lemma blen_app a b : blen (a ++ b) = blen a + blen b.
Proof. induction a as [|c a IH]; simpl; lia. Qed.

Lemma boff_0 s : boff s 0 = 0.
Proof. reflexivity. Qed.

Lemma firstn_S {A} (s : list A) i c :
  nth_error s i = Some c -> firstn (S i) s = firstn i s ++ [c].
Proof.
  revert i; induction s as [|x s IH]; intros [|i] H; simpl in *; try discriminate.
  - inversion H; reflexivity.
  - f_equal. apply IH. exact H.
Qed.

Lemma boff_S s i c : nth_error s i = Some c -> boff s (S i) = boff s i + len_utf8 c.
Proof. intros H. unfold boff. rewrite (firstn_S _ _ _ H), blen_app. simpl. lia. Qed.

Lemma boff_all s : boff s (length s) = blen s.
Proof. unfold boff. rewrite firstn_all. reflexivity. Qed.

Lemma boff_lt s i j : i < j -> j <= length s -> boff s i < boff s j.
Proof.
  intros Hij Hj. induction j as [|j IH]; [lia|].
  destruct (nth_error s j) as [c|] eqn:E.
  2:{ apply nth_error_None in E. lia. }
  rewrite (boff_S _ _ _ E). pose proof (len_utf8_pos c).
  destruct (Nat.eq_dec i j) as [->|Hn]; [lia|].
  assert (boff s i < boff s j) by (apply IH; lia). lia.
Qed.

Lemma boff_le s i j : i <= j -> j <= length s -> boff s i <= boff s j.
Proof.
  intros H1 H2. destruct (Nat.eq_dec i j) as [->|Hn]; [lia|].
  pose proof (boff_lt s i j). lia.
Qed.

Lemma boff_eq_end s i : i <= length s -> Nat.eqb (boff s i) (blen s) = Nat.eqb i (length s).
Proof.
  intros H. rewrite <- boff_all.
  destruct (Nat.eqb_spec i (length s)) as [->|Hn].
  - apply Nat.eqb_refl.
  - apply Nat.eqb_neq. pose proof (boff_lt s i (length s)). lia.
Qed.

Lemma boff_eq_0 s i : i <= length s -> Nat.eqb (boff s i) 0 = Nat.eqb i 0.
Proof.
  intros H. destruct i as [|i]; [reflexivity|].
  rewrite (proj2 (Nat.eqb_neq (S i) 0)) by lia.
  apply Nat.eqb_neq. pose proof (boff_lt s 0 (S i)). rewrite boff_0 in *. lia.
Qed.

Lemma slice_from_boff s i : i <= length s -> slice_from s (boff s i) = Some (skipn i s).
Proof.
  revert i; induction s as [|c s IH]; intros [|i] H; simpl in H; try lia; try reflexivity.
  unfold boff. cbn [firstn blen skipn].
  pose proof (len_utf8_pos c).
  cbn [slice_from].
  destruct (len_utf8 c + blen (firstn i s)) as [|n] eqn:E; [lia|].
  rewrite <- E.
  rewrite (proj2 (Nat.leb_le _ _)) by lia.
  replace (len_utf8 c + blen (firstn i s) - len_utf8 c) with (boff s i) by (unfold boff; lia).
  apply IH. lia.
Qed.

Lemma slice_to_boff s i : i <= length s -> slice_to s (boff s i) = Some (firstn i s).
Proof.
  revert i; induction s as [|c s IH]; intros [|i] H; simpl in H; try lia; try reflexivity.
  unfold boff. cbn [firstn blen].
  pose proof (len_utf8_pos c).
  cbn [slice_to].
  destruct (len_utf8 c + blen (firstn i s)) as [|n] eqn:E; [lia|].
  rewrite <- E.
  rewrite (proj2 (Nat.leb_le _ _)) by lia.
  replace (len_utf8 c + blen (firstn i s) - len_utf8 c) with (boff s i) by (unfold boff; lia).
  rewrite IH by lia. reflexivity.
Qed.

Lemma boff_skipn s i j : i <= j -> boff s j = boff s i + boff (skipn i s) (j - i).
Proof.
  intros H. unfold boff.
  rewrite <- blen_app. f_equal.
  rewrite <- (firstn_skipn i s) at 1.
  rewrite firstn_app, firstn_firstn.
  replace (Nat.min j i) with i by lia.
  f_equal.
  destruct (Nat.le_gt_cases i (length s)).
  - rewrite firstn_length. replace (Nat.min i (length s)) with i by lia. reflexivity.
  - rewrite skipn_all2 by lia. rewrite !firstn_nil. reflexivity.
Qed.

Lemma slice_boff s i j : i <= j -> j <= length s ->
  slice s (boff s i) (boff s j) = Some (firstn (j - i) (skipn i s)).
Proof.
  intros H1 H2. unfold slice.
  rewrite (proj2 (Nat.leb_le _ _)) by (apply boff_le; lia).
  rewrite slice_from_boff by lia.
  rewrite (boff_skipn s i j) by lia.
  replace (boff s i + boff (skipn i s) (j - i) - boff s i) with (boff (skipn i s) (j - i)) by lia.
  apply slice_to_boff. rewrite skipn_length. lia.
Qed.

Lemma hd_skipn (s : str) i : hd_error (skipn i s) = nth_error s i.
Proof. revert i; induction s as [|c s IH]; intros [|i]; simpl; auto. Qed.

Lemma mem_In c l : mem c l = true <-> In c l.
Proof.
  unfold mem. rewrite existsb_exists. split.
  - intros (x & H1 & H2). apply N.eqb_eq in H2. subst. exact H1.
  - intros H. exists c. split; [exact H|apply N.eqb_refl].
Qed.

Lemma list_eqb_N a b : list_eqb N.eqb a b = true -> a = b.
Proof.
  revert b; induction a as [|x a IH]; destruct b as [|y b]; simpl; intros H; try discriminate; auto.
  apply andb_true_iff in H as [H1 H2]. apply N.eqb_eq in H1. subst. f_equal. auto.
Qed.

Lemma str_eqb_eq a b : str_eqb a b = true <-> a = b.
Proof.
  split; [apply list_eqb_N|]. intros <-. unfold str_eqb. induction a; simpl; auto.
  rewrite N.eqb_refl. auto.
Qed.
Lemma Forall2_imp {A B} (P Q : A -> B -> Prop) l m :
  (forall a b, P a b -> Q a b) -> Forall2 P l m -> Forall2 Q l m.
Proof. intros H; induction 1; constructor; auto. Qed.
