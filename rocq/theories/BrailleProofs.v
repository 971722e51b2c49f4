(** Lemmas about BrailleModel.v. *)
From Verif Require Import Base BaseProofs TranslationModel TranslationProofs BrailleModel.

Fixpoint powerset {A} (l : list A) : list (list A) :=
  match l with
  | [] => [[]]
  | x :: r => let p := powerset r in map (cons x) p ++ p
  end.
Lemma filter_powerset {A} (f : A -> bool) l : In (filter f l) (powerset l).
Proof.
  induction l; simpl; auto. destruct (f a); apply in_or_app; [left; apply in_map|right]; auto.
Qed.

(** Standard value of a set of dots: 2^(d-1) for each dot d >= 1. *)
Definition dot_value (d : dot) : N := if N.eqb d 0 then 0%N else (2 ^ (d - 1))%N.
Definition sum_values (c : list dot) : N := fold_right N.add 0%N (map dot_value c).

Definition decode (u : N) : list dot :=
  if N.leb 0xF0000 u
  then filter (fun d => N.testbit u (d - 1)) (tl all_dots)
  else filter (fun d => N.testbit u (d - 1)) [1;2;3;4;5;6;7;8]%N.

Definition check_cell (c : cell) : bool :=
  let plane := if existsb (fun d => N.leb 9 d) c then 0xF0000%N else 0x2800%N in
  match to_unicode c with
  | Ok u => N.eqb u (plane + sum_values c) && list_eqb N.eqb (decode u) (filter (fun d => negb (N.eqb d 0)) c)
  | _ => false
  end.

Lemma sweep : forallb check_cell (powerset all_dots) = true.
Proof. vm_compute. reflexivity. Qed.

Lemma cell_of_in d ds : In d all_dots -> (In d (cell_of ds) <-> In d ds).
Proof.
  intros Ha. unfold cell_of. rewrite filter_In. split.
  - intros [_ H]. unfold mem in H. apply existsb_exists in H as (x & Hx & E). apply N.eqb_eq in E. subst. auto.
  - intros H. split; auto. unfold mem. apply existsb_exists. exists d. split; auto. apply N.eqb_refl.
Qed.

Lemma to_unicode_cell ds :
  exists u, to_unicode (cell_of ds) = Ok u /\
    u = ((if existsb (fun d => N.leb 9 d) (cell_of ds) then 0xF0000 else 0x2800) + sum_values (cell_of ds))%N /\
    decode u = filter (fun d => negb (N.eqb d 0)) (cell_of ds).
Proof.
  pose proof (proj1 (forallb_forall _ _) sweep (cell_of ds) (filter_powerset _ _)) as H.
  unfold check_cell in H. destruct (to_unicode (cell_of ds)) as [u| |]; try discriminate.
  apply andb_true_iff in H as [H1 H2]. apply N.eqb_eq in H1. apply list_eqb_N in H2.
  exists u. auto.
Qed.

Lemma to_unicode_inj a b u :
  to_unicode (cell_of a) = Ok u -> to_unicode (cell_of b) = Ok u ->
  forall d, In d all_dots -> d <> 0%N -> (In d a <-> In d b).
Proof.
  intros Ha Hb d Hd H0.
  destruct (to_unicode_cell a) as (u1 & E1 & _ & D1).
  destruct (to_unicode_cell b) as (u2 & E2 & _ & D2).
  assert (u1 = u) by congruence. assert (u2 = u) by congruence. subst u1 u2.
  rewrite <- (cell_of_in d a Hd), <- (cell_of_in d b Hd).
  assert (forall c, In d (filter (fun d => negb (N.eqb d 0)) c) <-> In d c) as F.
  { intros c. rewrite filter_In. split; [tauto|]. intros Hc. split; auto.
    apply negb_true_iff. apply N.eqb_neq. auto. }
  rewrite <- (F (cell_of a)), <- (F (cell_of b)), <- D1, <- D2. tauto.
Qed.

(** parsing *)
Definition joins (sep : char) (parts : list str) : str :=
  match parts with
  | [] => []
  | p :: ps => p ++ flat_map (fun q => sep :: q) ps
  end.

Lemma split_nonempty sep s : split_on sep s <> [].
Proof. destruct s as [|c r]; simpl; [discriminate|]. destruct (N.eqb c sep); [discriminate|]. destruct (split_on sep r); discriminate. Qed.

Lemma split_join sep s : joins sep (split_on sep s) = s.
Proof.
  induction s as [|c r IH]; simpl; auto. destruct (N.eqb_spec c sep).
  - subst. simpl. destruct (split_on sep r) as [|p ps] eqn:E; [destruct (split_nonempty sep r E)|].
    simpl in *. f_equal. exact IH.
  - destruct (split_on sep r) as [|p ps] eqn:E; [destruct (split_nonempty sep r E)|].
    simpl in *. f_equal. exact IH.
Qed.
Lemma split_clean sep s p : In p (split_on sep s) -> ~ In sep p.
Proof.
  revert p; induction s as [|c r IH]; simpl; intros p H.
  - destruct H as [<-|[]]. auto.
  - destruct (N.eqb_spec c sep).
    + destruct H as [<-|H]; auto.
    + destruct (split_on sep r) as [|q qs] eqn:E.
      * destruct H as [<-|[]]. simpl. intros [X|[]]; auto.
      * destruct H as [<-|H]; [|apply IH; simpl; auto].
        intros [X|X]; [auto|]. apply (IH q); simpl; auto.
Qed.
Lemma split_app_clean sep p r : ~ In sep p -> split_on sep (p ++ sep :: r) = p :: split_on sep r.
Proof.
  induction p as [|c p IH]; simpl; intros H.
  - rewrite N.eqb_refl. reflexivity.
  - destruct (N.eqb_spec c sep); [subst; exfalso; auto|]. rewrite IH by auto. reflexivity.
Qed.
Lemma split_clean_one sep p : ~ In sep p -> split_on sep p = [p].
Proof.
  induction p as [|c p IH]; simpl; intros H; auto.
  destruct (N.eqb_spec c sep); [subst; exfalso; auto|]. rewrite IH by auto. reflexivity.
Qed.
Lemma split_of_join sep p ps : Forall (fun q => ~ In sep q) (p :: ps) ->
  split_on sep (joins sep (p :: ps)) = p :: ps.
Proof.
  revert p; induction ps as [|q qs IH]; intros p H; inversion H; subst; simpl.
  - rewrite app_nil_r. apply split_clean_one. auto.
  - rewrite split_app_clean by auto. f_equal. apply (IH q). auto.
Qed.

Lemma collect_ok {A B} (f : A -> parsed B) l ys :
  collect f l = POk ys <-> Forall2 (fun x y => f x = POk y) l ys.
Proof.
  revert ys; induction l as [|x r IH]; simpl; intros ys.
  - split; intros H; inversion H; subst; constructor.
  - split.
    + destruct (f x) eqn:E; [|discriminate]. destruct (collect f r); [|discriminate].
      intros H; inversion H; subst. constructor; auto. apply IH. auto.
    + intros H; inversion H as [|? y ? ys' H1 H2]; subst. rewrite H1. apply IH in H2. rewrite H2. reflexivity.
Qed.

(** The dot denoted by a character: '0'..'9' are dots 0..9, 'a'..'f' dots 10..15. *)
Definition denotes (c : char) (d : dot) : Prop :=
  ((48 <= c /\ c <= 57 /\ d = c - 48) \/ (97 <= c /\ c <= 102 /\ d = c - 97 + 10))%N.


Lemma N_le_enum (n : nat) (c : N) (P : N -> Prop) :
  (forall k, k < n -> P (N.of_nat k)) -> (c < N.of_nat n)%N -> P c.
Proof. intros H Hc. rewrite <- (N2Nat.id c). apply H. lia. Qed.

Lemma dot_of_char_ok c d : dot_of_char c = POk d <-> denotes c d.
Proof.
  destruct (N.ltb_spec c 103) as [Hc|Hc].
  - revert d. pattern c. apply (N_le_enum 103); [|simpl; lia].
    intros k Hk d.
    do 103 (destruct k as [|k]; [unfold denotes; simpl; split;
       [intros H; inversion H; subst; lia|
        intros H; (destruct H as [(?&?&->)|(?&?&->)]; try lia; reflexivity)]|]). lia.
  - split.
    + intros H. exfalso.
      assert (dot_of_char c = PInvalid (Some c)) as E.
      { unfold dot_of_char. destruct c as [|q]; [lia|].
        do 7 (destruct q as [q|q|]; try lia; try reflexivity). }
      congruence.
    + intros [(?&?&?)|(?&?&?)]; lia.
Qed.

(** Specification of a dots operand. *)
Definition operand (s : str) (cs : list cell) : Prop :=
  exists parts digits, s = joins 45%N parts /\ parts <> [] /\
    Forall (fun p => p <> []) parts /\
    Forall2 (Forall2 denotes) parts digits /\ cs = map cell_of digits.

Lemma denotes_no_dash p ds : Forall2 denotes p ds -> ~ In 45%N p.
Proof.
  induction 1 as [|c d p ds H _ IH]; simpl; [tauto|]. intros [E|E]; auto. subst.
  destruct H as [(?&?&?)|(?&?&?)]; lia.
Qed.

Lemma cell_of_str_ok p c :
  cell_of_str p = POk c <-> exists ds, p <> [] /\ Forall2 denotes p ds /\ c = cell_of ds.
Proof.
  assert (HF : forall ds, Forall2 (fun x y => dot_of_char x = POk y) p ds <-> Forall2 denotes p ds).
  { intros ds. split; intros H; (eapply Forall2_imp; [|exact H]; intros a b; apply dot_of_char_ok). }
  unfold cell_of_str. destruct p as [|x p']; [split; [discriminate|]; intros (ds & H & _); congruence|].
  split.
  - destruct (collect dot_of_char (x :: p')) as [ds|] eqn:E; [|discriminate].
    apply collect_ok in E. rewrite HF in E.
    intros H; inversion H; subst. exists ds. split; [discriminate|auto].
  - intros (ds & _ & H & ->). rewrite <- HF in H. apply collect_ok in H. rewrite H. reflexivity.
Qed.

Lemma parts_cells (l : list str) dg : Forall (fun p : str => p <> []) l ->
  Forall2 (Forall2 denotes) l dg -> Forall2 (fun x y => cell_of_str x = POk y) l (map cell_of dg).
Proof.
  intros HF H. induction H as [|q ds qs dg' Hq _ IH]; simpl; constructor.
  - apply cell_of_str_ok. inversion HF; subst. eauto.
  - apply IH. inversion HF; auto.
Qed.
Lemma parts_clean (l : list str) dg : Forall2 (Forall2 denotes) l dg -> Forall (fun q => ~ In 45%N q) l.
Proof. induction 1 as [|q ds qs dg' Hq _ IH]; constructor; auto. eapply denotes_no_dash; eauto. Qed.

Lemma cells_of_str_ok s cs : cells_of_str s = POk cs <-> operand s cs.
Proof.
  unfold cells_of_str. rewrite collect_ok. split.
  - intros H.
    assert (exists digits, Forall2 (Forall2 denotes) (split_on 45%N s) digits /\
              cs = map cell_of digits /\ Forall (fun p => p <> []) (split_on 45%N s)) as (dg & H1 & H2 & H3).
    { induction H as [|p c ps cs' H _ (dg & H1 & H2 & H3)].
      - exists []. repeat split; constructor.
      - apply cell_of_str_ok in H as (ds & Hne & Hd & ->). exists (ds :: dg).
        split; [constructor; auto|]. split; [simpl; congruence|constructor; auto]. }
    exists (split_on 45%N s), dg. split; [symmetry; apply split_join|].
    split; [apply split_nonempty|]. auto.
  - intros (parts & dg & -> & Hne & HF & H & ->).
    destruct parts as [|p ps]; [congruence|].
    rewrite split_of_join.
    + apply parts_cells; auto.
    + eapply parts_clean; eauto.
Qed.

Lemma cells_to_string_ok css : exists s, cells_to_string (map cell_of css) = Ok s /\
  Forall2 (fun ds u => to_unicode (cell_of ds) = Ok u) css s.
Proof.
  induction css as [|ds r (s & E & H)]; simpl; [exists []; split; constructor|].
  destruct (to_unicode_cell ds) as (u & Eu & _). rewrite Eu, E. simpl. exists (u :: s). split; auto.
Qed.
