(** Compiler correctness: runs of the compiled code are exactly the matches. *)
From Verif Require Import Base BaseProofs RegexpModel RegexpSpec RegexpCode RegexpVM.

(** ** Shape of the code *)

Section Shape.
Variable prog : list instr.
Variable K : list (list char).

Definition tgt_ok (q : nat) (x : instr) : Prop :=
  match x with
  | IJump t => t <= q
  | ISplit a b => a <= q /\ b <= q
  | IClass k | INotClass k => k < length K
  | IMatch _ => False
  | _ => True
  end.

Definition block (p q : nat) : Prop :=
  forall pc, p <= pc -> pc < q -> exists x, nth_error prog pc = Some x /\ tgt_ok q x.

Lemma tgt_ok_le q q' x : q <= q' -> tgt_ok q x -> tgt_ok q' x.
Proof. destruct x; simpl; intros; lia. Qed.

Lemma block_join p m q : m <= q -> block p m -> block m q -> block p q.
Proof.
  intros H Hb1 Hb2 pc H1 H2. destruct (Nat.lt_ge_cases pc m).
  - destruct (Hb1 pc H1 H0) as (x & Hx & Hk). exists x. split; auto. exact (tgt_ok_le _ _ _ H Hk).
  - apply Hb2; auto.
Qed.

Lemma block_one p q x : nth_error prog p = Some x -> tgt_ok q x -> S p <= q -> block (S p) q -> block p q.
Proof.
  intros Hx Hk Hq Hb pc H1 H2. destruct (Nat.eq_dec pc p) as [->|Hn]; [eauto|].
  apply Hb; lia.
Qed.

Lemma block_nil p : block p p.
Proof. intros pc H1 H2; lia. Qed.

Lemma block_single p x : nth_error prog p = Some x -> tgt_ok (S p) x -> block p (S p).
Proof. intros. eapply block_one; eauto. apply block_nil. Qed.

Lemma block_str is p q :
  (forall x, In x is -> forall q, tgt_ok q x) -> str_seg prog is p q -> block p q.
Proof.
  revert p; induction is as [|x is IH]; simpl; intros p Hk H.
  - subst. apply block_nil.
  - destruct H as [H1 H2]. pose proof (str_seg_le _ _ _ _ H2).
    apply (block_one _ _ x); [auto|apply Hk; auto|lia|apply IH; auto].
Qed.

Lemma block_rep n (S_ : nat -> nat -> Prop) p q :
  (forall p q, S_ p q -> p <= q) ->
  (forall p q, S_ p q -> block p q) -> rep_seg n S_ p q -> block p q.
Proof.
  intros Hle HS. revert p; induction n as [|n IH]; simpl; intros p H.
  - subst; apply block_nil.
  - destruct H as (m & H1 & H2). pose proof (rep_seg_le _ _ _ _ Hle H2).
    eapply block_join; eauto.
Qed.

Lemma block_star (S_ : nat -> nat -> Prop) p q :
  (forall p q, S_ p q -> p <= q) ->
  (forall p q, S_ p q -> block p q) -> star_seg prog S_ p q -> block p q.
Proof.
  intros Hle HS (m & H1 & H2 & H3 & ->). pose proof (Hle _ _ H2).
  eapply block_one; [exact H1|simpl; lia|lia|].
  apply (block_join _ m); [lia|auto|]. eapply block_single; [exact H3|simpl; lia].
Qed.

Lemma nth_error_lt {A} (l : list A) k x : nth_error l k = Some x -> k < length l.
Proof. intros H. apply nth_error_Some. congruence. Qed.

Lemma seg_block r : forall p q, seg prog K r p q -> block p q.
Proof.
  induction r; simpl; intros p q H;
    try (destruct H as [H ->]; eapply block_single; [exact H|exact I]);
    try (eapply block_str; [|exact H]; intros x Hx; apply in_map_iff in Hx;
         destruct Hx as (c & <- & _); intros; exact I).
  - destruct H as (m & H1 & H2). pose proof (seg_le _ _ _ _ _ H2). eapply block_join; eauto.
  - destruct H as (m & H1 & H2 & H3 & H4).
    pose proof (seg_le _ _ _ _ _ H2). pose proof (seg_le _ _ _ _ _ H4).
    eapply block_one; [exact H1|simpl; lia|lia|].
    apply (block_join _ m); [lia|auto|].
    eapply block_one; [exact H3|simpl; lia|lia|auto].
  - destruct H as (H1 & H2). pose proof (seg_le _ _ _ _ _ H2).
    eapply block_one; [exact H1|simpl; lia|lia|auto].
  - eapply block_star; [apply seg_le|apply IHr|exact H].
  - destruct H as (m & H1 & H2 & ->). pose proof (seg_le _ _ _ _ _ H1).
    apply (block_join _ m); [lia|auto|]. eapply block_single; [exact H2|simpl; lia].
  - destruct H as (k & H1 & H2 & ->). eapply block_single; [exact H1|]. simpl. eapply nth_error_lt; eauto.
  - destruct H as (k & H1 & H2 & ->). eapply block_single; [exact H1|]. simpl. eapply nth_error_lt; eauto.
  - eapply block_rep; [apply seg_le|apply IHr|exact H].
  - destruct H as (m & H1 & H2).
    assert (m <= q) by (destruct H2 as (m' & _ & H2 & _ & ->); apply seg_le in H2; lia).
    eapply (block_join _ m); auto.
    + eapply block_rep; [apply seg_le|apply IHr|exact H1].
    + eapply block_star; [apply seg_le|apply IHr|exact H2].
  - destruct H as (h & H1 & H2).
    assert (Hr : forall p q, rep_seg (m - n) (seg prog K r) p q -> p <= q).
    { intros; eapply rep_seg_le; [|eassumption]; apply seg_le. }
    assert (h <= q) by (destruct H2 as (m' & _ & H2 & _ & ->); apply Hr in H2; lia).
    eapply (block_join _ h); auto.
    + eapply block_rep; [apply seg_le|apply IHr|exact H1].
    + eapply block_star; [exact Hr| |exact H2].
      intros p' q' Hpq. eapply block_rep; [apply seg_le|apply IHr|exact Hpq].
  - destruct H as (m & H1 & H2 & H3 & ->). pose proof (seg_le _ _ _ _ _ H2).
    eapply block_one; [exact H1|exact I|lia|].
    apply (block_join _ m); [lia|auto|]. eapply block_single; [exact H3|exact I].
  - auto.
  - subst; apply block_nil.
Qed.
End Shape.

Lemma compile_wf r : wf (fst (compile r)) (snd (compile r)).
Proof.
  destruct (compile_seg r) as (q & Hseg & Hm & Hl).
  split; [lia|]. intros pc x Hx.
  pose proof (nth_error_lt _ _ _ Hx) as Hlt. rewrite Hl in Hlt.
  destruct (Nat.eq_dec pc q) as [->|Hn].
  - rewrite Hm in Hx. inversion Hx. exact I.
  - destruct (seg_block _ _ _ _ _ Hseg pc) as (y & Hy & Hk); try lia.
    rewrite Hx in Hy; inversion Hy; subst y.
    destruct x; simpl in *; try rewrite Hl; try lia; try contradiction.
Qed.

(** ** Runs and matches *)

Section RunMat.
Variable lower : char -> list char.
Variable env : N -> option N.
Variable at_start : bool.
Variable prog : list instr.
Variable K : list (list char).
Variable input : str.

Notation Run := (Run lower env at_start prog K input).
Notation Mat := (Mat lower env at_start input).
Notation seg := (seg prog K).

(** matches of [RRepeatExactly] as chains *)
Lemma Mat_rep_app a : forall n m i c j c' k c'',
  Mat (RRepeatExactly n a) i c j c' -> Mat (RRepeatExactly m a) j c' k c'' ->
  Mat (RRepeatExactly (n + m) a) i c k c''.
Proof.
  induction n as [|n IH]; intros m i c j c' k c'' H1 H2; inversion H1; subst; simpl.
  - exact H2.
  - eapply M_exactly_S; eauto.
Qed.

(** char tests *)
Lemma char_step pc x i n c o p :
  nth_error prog pc = Some x ->
  (forall i c, succs env at_start input x pc i c = None) ->
  (forall t, x <> IMatch t) ->
  (forall j, consumes lower K input x j = Some true <-> char_ok input p j) ->
  Run n pc i c o -> char_ok input p i /\ exists n', n' < n /\ Run n' (S pc) (S i) c o.
Proof.
  intros Hx Hs Hm Hp Hr. inversion Hr; subst.
  - exfalso. rewrite Hx in H; inversion H; subst. eapply Hm; reflexivity.
  - rewrite Hx in H; inversion H; subst. rewrite Hs in H0. discriminate.
  - rewrite Hx in H; inversion H; subst. split; [apply Hp; assumption|]. exists n0. split; auto.
Qed.

Lemma consumes_char e j :
  consumes lower K input (IChar e) j = Some true <-> char_ok input (N.eqb e) j.
Proof.
  unfold consumes, char_ok, accepts. destruct (nth_error input j) as [a|].
  - split.
    + intros H; inversion H as [H1]. exists a. rewrite N.eqb_sym. auto.
    + intros (b & Hb & He). inversion Hb; subst. rewrite N.eqb_sym, He. reflexivity.
  - split; [discriminate|]. intros (b & Hb & _); discriminate.
Qed.

Lemma consumes_nchar e j :
  consumes lower K input (INotChar e) j = Some true <-> char_ok input (fun a => negb (N.eqb e a)) j.
Proof.
  unfold consumes, char_ok, accepts. destruct (nth_error input j) as [a|].
  - split.
    + intros H; inversion H as [H1]. exists a. rewrite N.eqb_sym. auto.
    + intros (b & Hb & He). inversion Hb; subst. rewrite N.eqb_sym, He. reflexivity.
  - split; [discriminate|]. intros (b & Hb & _); discriminate.
Qed.

Lemma consumes_cichar e j :
  consumes lower K input (ICIChar e) j = Some true <-> char_ok input (ci_eq lower e) j.
Proof.
  unfold consumes, char_ok, accepts, ci_eq. destruct (nth_error input j) as [a|].
  - split.
    + intros H; inversion H as [H1]. exists a. auto.
    + intros (b & Hb & He). inversion Hb; subst. rewrite He. reflexivity.
  - split; [discriminate|]. intros (b & Hb & _); discriminate.
Qed.

Lemma consumes_any j :
  consumes lower K input IAny j = Some true <-> char_ok input (fun _ => true) j.
Proof.
  unfold consumes, char_ok, accepts. destruct (nth_error input j) as [a|].
  - split; eauto.
  - split; [discriminate|]. intros (b & Hb & _); discriminate.
Qed.

Lemma consumes_class k cs j : nth_error K k = Some cs ->
  consumes lower K input (IClass k) j = Some true <-> char_ok input (fun a => mem a cs) j.
Proof.
  intros Hk. unfold consumes, char_ok, accepts. destruct (nth_error input j) as [a|].
  - rewrite Hk. cbn. split.
    + intros H; inversion H as [H1]. exists a. rewrite H1. auto.
    + intros (b & Hb & He). inversion Hb; subst. rewrite He. reflexivity.
  - split; [discriminate|]. intros (b & Hb & _); discriminate.
Qed.

Lemma consumes_nclass k cs j : nth_error K k = Some cs ->
  consumes lower K input (INotClass k) j = Some true <-> char_ok input (fun a => negb (mem a cs)) j.
Proof.
  intros Hk. unfold consumes, char_ok, accepts. destruct (nth_error input j) as [a|].
  - rewrite Hk. cbn. split.
    + intros H; inversion H as [H1]. exists a. rewrite H1. auto.
    + intros (b & Hb & He). inversion Hb; subst. rewrite He. reflexivity.
  - split; [discriminate|]. intros (b & Hb & _); discriminate.
Qed.

Lemma str_sound (mk : char -> instr) (pk : char -> char -> bool) :
  (forall e pc i c, succs env at_start input (mk e) pc i c = None) ->
  (forall e t, mk e <> IMatch t) ->
  (forall e j, consumes lower K input (mk e) j = Some true <-> char_ok input (pk e) j) ->
  forall s p q n i c o, str_seg prog (map mk s) p q -> Run n p i c o ->
  chars_ok input (map pk s) i /\ exists n', n' <= n /\ Run n' q (i + length s) c o.
Proof.
  intros H1 H2 H3. induction s as [|e s IH]; simpl; intros p q n i c o Hs Hr.
  - subst. split; auto. exists n. rewrite Nat.add_0_r. auto.
  - destruct Hs as [Ha Hs].
    destruct (char_step _ _ _ _ _ _ (pk e) Ha (H1 e p) (H2 e) (H3 e) Hr) as (Hc & n' & Hn & Hr').
    destruct (IH _ _ _ _ _ _ Hs Hr') as (Hcs & n'' & Hn' & Hr'').
    split; [split; auto|]. exists n''. split; [lia|].
    replace (i + S (length s)) with (S i + length s) by lia. exact Hr''.
Qed.

Lemma str_complete (mk : char -> instr) (pk : char -> char -> bool) :
  (forall e j, consumes lower K input (mk e) j = Some true <-> char_ok input (pk e) j) ->
  forall s p q n i c o, str_seg prog (map mk s) p q -> chars_ok input (map pk s) i ->
  Run n q (i + length s) c o -> exists n', Run n' p i c o.
Proof.
  intros H3. induction s as [|e s IH]; simpl; intros p q n i c o Hs Hc Hr.
  - subst. exists n. rewrite Nat.add_0_r in Hr. exact Hr.
  - destruct Hs as [Ha Hs]. destruct Hc as [Hc Hcs].
    replace (i + S (length s)) with (S i + length s) in Hr by lia.
    destruct (IH _ _ _ _ _ _ Hs Hcs Hr) as (n' & Hr').
    exists (S n'). eapply R_char; [exact Ha| |exact Hr']. apply H3. exact Hc.
Qed.

(** epsilon steps *)
Lemma eps_inv pc x n i c o l :
  nth_error prog pc = Some x -> succs env at_start input x pc i c = Some l ->
  Run n pc i c o -> exists n' t, n = S n' /\ In t l /\ Run n' (fst t) i (snd t) o.
Proof.
  intros Hx Hs Hr. inversion Hr; subst.
  - rewrite Hx in H; inversion H; subst. discriminate.
  - rewrite Hx in H; inversion H; subst. rewrite Hs in H0. inversion H0; subst. eauto.
  - rewrite Hx in H; inversion H; subst. unfold consumes in H0.
    destruct x0; cbn in H0, Hs; discriminate.
Qed.

Definition sound_body (S_ : nat -> nat -> Prop) (M : nat -> span -> nat -> span -> Prop) : Prop :=
  forall p q n i c o, S_ p q -> Run n p i c o ->
    exists j c' n', M i c j c' /\ n' <= n /\ Run n' q j c' o.

Definition complete_body (S_ : nat -> nat -> Prop) (M : nat -> span -> nat -> span -> Prop) : Prop :=
  forall p q n i c j c' o, S_ p q -> M i c j c' -> Run n q j c' o -> exists n', Run n' p i c o.

Lemma rep_sound a (S_ : nat -> nat -> Prop) :
  sound_body S_ (Mat a) -> forall n, sound_body (rep_seg n S_) (Mat (RRepeatExactly n a)).
Proof.
  intros Ha. induction n as [|n IH]; intros p q k i c o Hs Hr; cbn [rep_seg] in Hs.
  - subst. exists i, c, k. split; [constructor|auto].
  - destruct Hs as (m & H1 & H2).
    destruct (Ha _ _ _ _ _ _ H1 Hr) as (j & c' & k' & Hm & Hk & Hr').
    destruct (IH _ _ _ _ _ _ H2 Hr') as (j2 & c2 & k2 & Hm2 & Hk2 & Hr2).
    exists j2, c2, k2. split; [eapply M_exactly_S; eauto|]. split; [lia|auto].
Qed.

Lemma rep_complete a (S_ : nat -> nat -> Prop) :
  complete_body S_ (Mat a) -> forall n, complete_body (rep_seg n S_) (Mat (RRepeatExactly n a)).
Proof.
  intros Ha. induction n as [|n IH]; intros p q k i c j c' o Hs Hm Hr; cbn [rep_seg] in Hs.
  - subst. inversion Hm; subst. eauto.
  - destruct Hs as (m & H1 & H2). inversion Hm; subst.
    destruct (IH _ _ _ _ _ _ _ _ H2 H8 Hr) as (k' & Hr').
    eapply Ha; eauto.
Qed.

Lemma star_sound a (S_ : nat -> nat -> Prop) :
  sound_body S_ (Mat a) -> sound_body (star_seg prog S_) (Mat (RZeroOrMore a)).
Proof.
  intros Ha p q n. induction n as [n IHn] using lt_wf_ind; intros i c o Hs Hr.
  destruct Hs as (m & H1 & H2 & H3 & Hq).
  destruct (eps_inv _ _ _ _ _ _ _ H1 eq_refl Hr) as (n1 & t & -> & Ht & Hr1).
  cbn [In] in Ht. destruct Ht as [<-|[<-|[]]]; cbn [fst snd] in Hr1.
  - destruct (Ha _ _ _ _ _ _ H2 Hr1) as (j & c' & k' & Hm & Hk & Hr').
    destruct (eps_inv _ _ _ _ _ _ _ H3 eq_refl Hr') as (n2 & t & -> & Ht & Hr2).
    destruct Ht as [<-|[]]; cbn [fst snd] in Hr2.
    assert (Hlt : n2 < S n1) by lia.
    assert (Hst : star_seg prog S_ p q) by (exists m; auto).
    destruct (IHn n2 Hlt j c' o Hst Hr2) as (j2 & c2 & k2 & Hm2 & Hk2 & Hr3).
    inversion Hm2; subst.
    exists j2, c2, k2. split; [|split; [lia|exact Hr3]].
    eapply (M_star _ _ _ _ _ (S n)). eapply M_exactly_S; eauto.
  - exists i, c, n1. split; [|split; [lia|exact Hr1]].
    eapply (M_star _ _ _ _ _ 0). constructor.
Qed.

Lemma star_complete_n a (S_ : nat -> nat -> Prop) :
  complete_body S_ (Mat a) -> forall n,
  complete_body (star_seg prog S_) (Mat (RRepeatExactly n a)).
Proof.
  intros Ha. induction n as [|n IH]; intros p q k i c j c' o Hs Hm Hr;
    pose proof Hs as (m & H1 & H2 & H3 & Hq); inversion Hm; subst.
  - exists (S k). eapply R_eps; [exact H1|reflexivity|right; left; reflexivity|]. exact Hr.
  - destruct (IH _ _ _ _ _ _ _ _ Hs H9 Hr) as (k' & Hr').
    destruct (Ha (S p) m (S k') i c j0 c'0 o H2 H4) as (k2 & Hr2).
    { eapply R_eps; [exact H3|reflexivity|left; reflexivity|]. exact Hr'. }
    exists (S k2). eapply R_eps; [exact H1|reflexivity|left; reflexivity|]. exact Hr2.
Qed.

Lemma test_inv pc x n i c o b :
  nth_error prog pc = Some x ->
  succs env at_start input x pc i c = Some (if b : bool then [(pc + 1, c)] else []) ->
  Run n pc i c o -> b = true /\ exists n', n' <= n /\ Run n' (S pc) i c o.
Proof.
  intros Hx Hs Hr. destruct (eps_inv _ _ _ _ _ _ _ Hx Hs Hr) as (n' & t & -> & Ht & Hr').
  destruct b; [|contradiction]. destruct Ht as [<-|[]]. cbn [fst snd] in Hr'.
  rewrite Nat.add_1_r in Hr'. split; auto. exists n'. split; [lia|auto].
Qed.

Lemma test_intro pc x n i c o :
  nth_error prog pc = Some x ->
  succs env at_start input x pc i c = Some [(pc + 1, c)] ->
  Run n (S pc) i c o -> exists n', Run n' pc i c o.
Proof.
  intros Hx Hs Hr. exists (S n). eapply R_eps; [exact Hx|exact Hs|left; reflexivity|].
  cbn [fst snd]. rewrite Nat.add_1_r. exact Hr.
Qed.

Theorem seg_sound r : no_range r = true -> sound_body (seg r) (Mat r).
Proof.
  induction r; cbn [no_range]; intros Hnr p q n0 i c0 o Hs Hr; try discriminate;
    try (apply andb_prop in Hnr; destruct Hnr as [Hnr1 Hnr2]); cbn [RegexpCode.seg] in Hs.
  - destruct Hs as [Ha ->].
    destruct (char_step _ _ _ _ _ _ (N.eqb c) Ha (fun _ _ => eq_refl) ltac:(discriminate) (consumes_char c) Hr) as (Hc & n' & Hn & Hr').
    exists (S i), c0, n'. split; [constructor; auto|]. split; [lia|auto].
  - destruct Hs as (m & H1 & H2).
    destruct (IHr1 Hnr1 _ _ _ _ _ _ H1 Hr) as (j & c' & n' & Hm & Hn & Hr').
    destruct (IHr2 Hnr2 _ _ _ _ _ _ H2 Hr') as (j2 & c2 & n2 & Hm2 & Hn2 & Hr2).
    exists j2, c2, n2. split; [eapply M_concat; eauto|]. split; [lia|auto].
  - destruct Hs as (m & H1 & H2 & H3 & H4).
    destruct (eps_inv _ _ _ _ _ _ _ H1 eq_refl Hr) as (n1 & t & -> & Ht & Hr1).
    destruct Ht as [<-|[<-|[]]]; cbn [fst snd] in Hr1.
    + destruct (IHr1 Hnr1 _ _ _ _ _ _ H2 Hr1) as (j & c' & n' & Hm & Hn & Hr').
      destruct (eps_inv _ _ _ _ _ _ _ H3 eq_refl Hr') as (n2 & t & -> & Ht & Hr2).
      destruct Ht as [<-|[]]; cbn [fst snd] in Hr2.
      exists j, c', n2. split; [apply M_left; auto|]. split; [lia|auto].
    + destruct (IHr2 Hnr2 _ _ _ _ _ _ H4 Hr1) as (j & c' & n' & Hm & Hn & Hr').
      exists j, c', n'. split; [apply M_right; auto|]. split; [lia|auto].
  - destruct Hs as (H1 & H2).
    destruct (eps_inv _ _ _ _ _ _ _ H1 eq_refl Hr) as (n1 & t & -> & Ht & Hr1).
    destruct Ht as [<-|[<-|[]]]; cbn [fst snd] in Hr1.
    + destruct (IHr Hnr _ _ _ _ _ _ H2 Hr1) as (j & c' & n' & Hm & Hn & Hr').
      exists j, c', n'. split; [apply M_opt_some; auto|]. split; [lia|auto].
    + exists i, c0, n1. split; [apply M_opt_none|]. split; [lia|auto].
  - eapply star_sound; eauto.
  - destruct Hs as (m & H1 & H2 & ->).
    revert i c0 Hr. induction n0 as [n0 IHn] using lt_wf_ind; intros i c0 Hr.
    destruct (IHr Hnr _ _ _ _ _ _ H1 Hr) as (j & c' & n' & Hm & Hn & Hr').
    destruct (eps_inv _ _ _ _ _ _ _ H2 eq_refl Hr') as (n1 & t & -> & Ht & Hr1).
    destruct Ht as [<-|[<-|[]]]; cbn [fst snd] in Hr1.
    + destruct (IHn n1 ltac:(lia) _ _ Hr1) as (j2 & c2 & n2 & Hm2 & Hn2 & Hr2).
      inversion Hm2; subst. exists j2, c2, n2. split; [|split; [lia|auto]].
      eapply (M_plus _ _ _ _ _ (S n)). eapply M_exactly_S; eauto.
    + exists j, c', n1. split; [|split; [lia|auto]].
      eapply (M_plus _ _ _ _ _ 0). eapply M_exactly_S; eauto. constructor.
  - destruct Hs as [Ha ->].
    destruct (char_step _ _ _ _ _ _ _ Ha (fun _ _ => eq_refl) ltac:(discriminate) consumes_any Hr) as (Hc & n' & Hn & Hr').
    exists (S i), c0, n'. split; [constructor; auto|]. split; [lia|auto].
  - destruct Hs as (k & Ha & Hk & ->).
    destruct (char_step _ _ _ _ _ _ _ Ha (fun _ _ => eq_refl) ltac:(discriminate) (fun j => consumes_class k cs j Hk) Hr) as (Hc & n' & Hn & Hr').
    exists (S i), c0, n'. split; [constructor; auto|]. split; [lia|auto].
  - destruct Hs as (k & Ha & Hk & ->).
    destruct (char_step _ _ _ _ _ _ _ Ha (fun _ _ => eq_refl) ltac:(discriminate) (fun j => consumes_nclass k cs j Hk) Hr) as (Hc & n' & Hn & Hr').
    exists (S i), c0, n'. split; [constructor; auto|]. split; [lia|auto].
  - eapply rep_sound; eauto.
  - destruct Hs as (m & H1 & H2).
    destruct (rep_sound r _ (IHr Hnr) n _ _ _ _ _ _ H1 Hr) as (j & c' & n' & Hm & Hn & Hr').
    destruct (star_sound r _ (IHr Hnr) _ _ _ _ _ _ H2 Hr') as (j2 & c2 & n2 & Hm2 & Hn2 & Hr2).
    inversion Hm2; subst.
    exists j2, c2, n2. split; [|split; [lia|auto]].
    eapply (M_atleast _ _ _ _ n (n + n1)); [lia|]. eapply Mat_rep_app; eauto.
  - destruct Hs as (m & H1 & H2 & H3 & ->).
    destruct (eps_inv _ _ _ _ _ _ _ H1 eq_refl Hr) as (n1 & t & -> & Ht & Hr1).
    destruct Ht as [<-|[]]; cbn [fst snd] in Hr1. rewrite Nat.add_1_r in Hr1.
    destruct (IHr Hnr _ _ _ _ _ _ H2 Hr1) as (j & c' & n' & Hm & Hn & Hr').
    destruct (eps_inv _ _ _ _ _ _ _ H3 eq_refl Hr') as (n2 & t & -> & Ht & Hr2).
    destruct Ht as [<-|[]]; cbn [fst snd] in Hr2. rewrite Nat.add_1_r in Hr2.
    exists j, (fst c', j), n2. split; [apply M_capture; auto|]. split; [lia|auto].
  - destruct (str_sound IChar N.eqb ltac:(reflexivity) ltac:(discriminate) consumes_char _ _ _ _ _ _ _ Hs Hr) as (Hc & n' & Hn & Hr').
    exists (i + length s), c0, n'. split; [constructor; auto|auto].
  - destruct (str_sound INotChar (fun e a => negb (N.eqb e a)) ltac:(reflexivity) ltac:(discriminate) consumes_nchar _ _ _ _ _ _ _ Hs Hr) as (Hc & n' & Hn & Hr').
    exists (i + length s), c0, n'. split; [constructor; auto|auto].
  - destruct (str_sound ICIChar (ci_eq lower) ltac:(reflexivity) ltac:(discriminate) consumes_cichar _ _ _ _ _ _ _ Hs Hr) as (Hc & n' & Hn & Hr').
    exists (i + length s), c0, n'. split; [constructor; auto|auto].
  - destruct Hs as [Ha ->]. destruct (test_inv _ _ _ _ _ _ _ Ha eq_refl Hr) as (Hb & n' & Hn & Hr').
    exists i, c0, n'. split; [|auto]. constructor. unfold atom_var_eq.
    destruct (env v) as [z|]; [|discriminate]. apply N.eqb_eq in Hb. congruence.
  - destruct Hs as [Ha ->]. destruct (test_inv _ _ _ _ _ _ _ Ha eq_refl Hr) as (Hb & n' & Hn & Hr').
    exists i, c0, n'. split; [|auto]. constructor. unfold atom_var_ne.
    destruct (env v) as [z|]; [|discriminate]. exists z. split; auto.
    apply negb_true_iff, N.eqb_neq in Hb. exact Hb.
  - destruct (IHr Hnr _ _ _ _ _ _ Hs Hr) as (j & c' & n' & Hm & Hn & Hr').
    exists j, c', n'. split; [constructor; exact Hm|auto].
  - subst. exists i, c0, n0. split; [constructor|auto].
  - destruct Hs as [Ha ->]. destruct (test_inv _ _ _ _ _ _ _ Ha eq_refl Hr) as (Hb & n' & Hn & Hr').
    exists i, c0, n'. split; [|auto]. constructor. apply Nat.eqb_eq; exact Hb.
  - destruct Hs as [Ha ->]. destruct (test_inv _ _ _ _ _ _ _ Ha eq_refl Hr) as (Hb & n' & Hn & Hr').
    exists i, c0, n'. split; [|auto]. constructor. apply negb_true_iff, Nat.eqb_neq in Hb; exact Hb.
  - destruct Hs as [Ha ->]. destruct (test_inv _ _ _ _ _ _ _ Ha eq_refl Hr) as (Hb & n' & Hn & Hr').
    exists i, c0, n'. split; [|auto]. constructor. apply andb_prop in Hb. rewrite Nat.eqb_eq in Hb. exact Hb.
  - destruct Hs as [Ha ->]. destruct (test_inv _ _ _ _ _ _ _ Ha eq_refl Hr) as (Hb & n' & Hn & Hr').
    exists i, c0, n'. split; [|auto]. constructor. intros [E1 E2]. rewrite E1, E2 in Hb. discriminate.
  - destruct Hs as [Ha ->]. destruct (eps_inv _ _ _ _ _ _ _ Ha eq_refl Hr) as (n' & t & _ & [] & _).
Qed.

Theorem seg_complete r : no_range r = true -> complete_body (seg r) (Mat r).
Proof.
  induction r; cbn [no_range]; intros Hnr p q n0 i c0 j0 c0' o Hs Hm Hr; try discriminate;
    try (apply andb_prop in Hnr; destruct Hnr as [Hnr1 Hnr2]); cbn [RegexpCode.seg] in Hs;
    inversion Hm; subst.
  - destruct Hs as [Ha ->]. exists (S n0). eapply R_char; eauto. apply consumes_char; auto.
  - match goal with H : Mat r2 _ _ _ _ |- _ => rename H into M2 end.
    destruct Hs as (m & G1 & G2).
    destruct (IHr2 Hnr2 _ _ _ _ _ _ _ _ G2 M2 Hr) as (n2 & Hr2).
    eapply IHr1; eauto.
  - match goal with H : Mat r1 _ _ _ _ |- _ => rename H into M1 end.
    destruct Hs as (m & G1 & G2 & G3 & G4).
    destruct (IHr1 Hnr1 (S p) m (S n0) i c0 j0 c0' o G2 M1) as (n2 & Hr2).
    { eapply R_eps; [exact G3|reflexivity|left; reflexivity|exact Hr]. }
    exists (S n2). eapply R_eps; [exact G1|reflexivity|left; reflexivity|exact Hr2].
  - match goal with H : Mat r2 _ _ _ _ |- _ => rename H into M2 end.
    destruct Hs as (m & G1 & G2 & G3 & G4).
    destruct (IHr2 Hnr2 _ _ _ _ _ _ _ _ G4 M2 Hr) as (n2 & Hr2).
    exists (S n2). eapply R_eps; [exact G1|reflexivity|right; left; reflexivity|exact Hr2].
  - match goal with H : Mat r _ _ _ _ |- _ => rename H into M0 end.
    destruct Hs as (G1 & G2).
    destruct (IHr Hnr _ _ _ _ _ _ _ _ G2 M0 Hr) as (n2 & Hr2).
    exists (S n2). eapply R_eps; [exact G1|reflexivity|left; reflexivity|exact Hr2].
  - destruct Hs as (G1 & G2).
    exists (S n0). eapply R_eps; [exact G1|reflexivity|right; left; reflexivity|exact Hr].
  - eapply star_complete_n; eauto.
  - match goal with H : Mat (RRepeatExactly _ r) _ _ _ _ |- _ => rename H into MR end.
    (* one or more *)
    destruct Hs as (m & G1 & G2 & ->).
    clear Hm. revert i c0 MR. induction n as [|n IHn]; intros i c0 MR; inversion MR; subst.
    + match goal with H : Mat (RRepeatExactly 0 r) _ _ _ _ |- _ => inversion H; subst end.
      eapply (IHr Hnr p m (S n0)); eauto.
      eapply R_eps; [exact G2|reflexivity|right; left; reflexivity|exact Hr].
    + match goal with H : Mat (RRepeatExactly (S n) r) _ _ _ _ , H' : Mat r _ _ _ _ |- _ =>
        destruct (IHn _ _ H) as (n2 & Hr2) end.
      eapply (IHr Hnr p m (S n2)); eauto.
      eapply R_eps; [exact G2|reflexivity|left; reflexivity|exact Hr2].
  - destruct Hs as [Ha ->]. exists (S n0). eapply R_char; eauto. apply consumes_any; auto.
  - destruct Hs as (k & Ha & Hk & ->). exists (S n0). eapply R_char; eauto. apply (consumes_class k cs); auto.
  - destruct Hs as (k & Ha & Hk & ->). exists (S n0). eapply R_char; eauto. apply (consumes_nclass k cs); auto.
  - eapply (rep_complete r); eauto.
  - eapply (rep_complete r); eauto.
  - match goal with H : Mat (RRepeatExactly _ r) _ _ _ _ |- _ => rename H into MR end.
    destruct Hs as (m & G1 & G2).
    replace k with (n + (k - n)) in MR by lia.
    assert (Hsplit : forall a n m i c k c'', Mat (RRepeatExactly (n + m) a) i c k c'' ->
              exists j c', Mat (RRepeatExactly n a) i c j c' /\ Mat (RRepeatExactly m a) j c' k c'').
    { clear. intros a. induction n as [|n IH]; simpl; intros m i c k c'' H.
      - exists i, c. split; [constructor|exact H].
      - inversion H; subst.
        match goal with H : Mat (RRepeatExactly (n + m) a) _ _ _ _ |- _ =>
          destruct (IH _ _ _ _ _ H) as (j1 & c1 & Ha & Hb) end.
        exists j1, c1. split; [eapply M_exactly_S; eauto|exact Hb]. }
    destruct (Hsplit _ _ _ _ _ _ _ MR) as (j1 & c1 & Ha & Hb).
    destruct (star_complete_n r _ (IHr Hnr) _ _ _ _ _ _ _ _ _ G2 Hb Hr) as (n2 & Hr2).
    eapply (rep_complete r); eauto.
  - destruct Hs as (m & G1 & G2 & G3 & ->).
    destruct (IHr Hnr (S p) m (S n0) i (i, 0) j0 c' o G2) as (n2 & Hr2); auto.
    { eapply R_eps; [exact G3|reflexivity|left; reflexivity|]. cbn [fst snd]. rewrite Nat.add_1_r. exact Hr. }
    exists (S n2). eapply R_eps; [exact G1|reflexivity|left; reflexivity|]. cbn [fst snd]. rewrite Nat.add_1_r. exact Hr2.
  - eapply (str_complete IChar N.eqb consumes_char); eauto.
  - eapply (str_complete INotChar _ consumes_nchar); eauto.
  - eapply (str_complete ICIChar _ consumes_cichar); eauto.
  - destruct Hs as [Ha ->]. eapply test_intro; [exact Ha| |exact Hr].
    cbn [succs]. match goal with H : atom_var_eq _ _ _ |- _ => red in H; rewrite H end. rewrite N.eqb_refl. reflexivity.
  - destruct Hs as [Ha ->]. eapply test_intro; [exact Ha| |exact Hr].
    cbn [succs]. match goal with H : atom_var_ne _ _ _ |- _ => destruct H as (y & -> & Hne) end. apply N.eqb_neq in Hne. rewrite Hne. reflexivity.
  - eapply IHr; eauto.
  - eauto.
  - destruct Hs as [Ha ->]. eapply test_intro; [exact Ha| |exact Hr]. cbn [succs]. rewrite Nat.eqb_refl. reflexivity.
  - destruct Hs as [Ha ->]. eapply test_intro; [exact Ha| |exact Hr]. cbn [succs].
    match goal with H : _ <> length _ |- _ => apply Nat.eqb_neq in H; rewrite H end. reflexivity.
  - destruct Hs as [Ha ->]. eapply test_intro; [exact Ha| |exact Hr]. cbn [succs].
    match goal with H : at_start = true /\ _ |- _ => destruct H as [E1 E2]; rewrite E1, E2 end. reflexivity.
  - destruct Hs as [Ha ->]. eapply test_intro; [exact Ha| |exact Hr]. cbn [succs].
    replace (at_start && Nat.eqb j0 0) with false; [reflexivity|].
    symmetry. apply not_true_iff_false. intros Hc. apply andb_prop in Hc. rewrite Nat.eqb_eq in Hc. auto.
Qed.

(** ** Captures and positions *)

Lemma Mat_le_iter a (IH : forall i c j c', Mat a i c j c' -> i <= j) :
  forall n i c j c', Mat (RRepeatExactly n a) i c j c' -> i <= j.
Proof.
  induction n as [|n IHn]; intros i c j c' H; inversion H; subst; [lia|].
  match goal with H : Mat (RRepeatExactly n a) _ _ _ _, H' : Mat a _ _ _ _ |- _ => apply IHn in H; apply IH in H' end. lia.
Qed.

Lemma Mat_le r : forall i c j c', Mat r i c j c' -> i <= j.
Proof.
  induction r; intros i c0 j c0' H; inversion H; subst; try lia;
    repeat match goal with
    | IH : (forall i c j c', Mat ?a i c j c' -> _), H : Mat ?a _ _ _ _ |- _ => apply IH in H
    | IH : (forall i c j c', Mat ?a i c j c' -> _), H : Mat (RRepeatExactly _ ?a) _ _ _ _ |- _ =>
        apply (Mat_le_iter _ IH) in H
    end; lia.
Qed.

Lemma chars_ok_end ps : forall i, i <= length input -> chars_ok input ps i -> i + length ps <= length input.
Proof.
  induction ps as [|p ps IH]; intros i Hi H; simpl in *; [lia|].
  destruct H as [(a & Ha & _) H]. apply IH in H; [lia|]. apply nth_error_lt in Ha. lia.
Qed.

Lemma Mat_end_iter a
  (IH : forall i c j c', i <= length input -> Mat a i c j c' -> j <= length input) :
  forall n i c j c', i <= length input -> Mat (RRepeatExactly n a) i c j c' -> j <= length input.
Proof.
  induction n as [|n IHn]; intros i c j c' Hi H; inversion H; subst; [lia|].
  eauto.
Qed.

Lemma Mat_end r : forall i c j c', i <= length input -> Mat r i c j c' -> j <= length input.
Proof.
  assert (Hc : forall p i, char_ok input p i -> S i <= length input).
  { intros p i (a & Ha & _). apply nth_error_lt in Ha. lia. }
  induction r; intros i c0 j c0' Hi H; inversion H; subst; eauto;
    try (match goal with H : chars_ok _ (map ?f ?s) _ |- _ =>
           apply chars_ok_end in H; auto; rewrite map_length in H end; lia);
    try (match goal with H : Mat (RRepeatExactly _ _) _ _ _ _ |- _ => eapply Mat_end_iter; [|exact Hi|exact H] end; eauto).
Qed.

(** the capture start never passes the current position *)
Definition cstart (c : span) (i : nat) : Prop := fst c <= i.
Definition cwf (c : span) (i : nat) : Prop := fst c <= snd c /\ snd c <= i.

Lemma Mat_cstart_iter a (IH : forall i c j c', Mat a i c j c' -> cstart c i -> cstart c' j) :
  forall n i c j c', Mat (RRepeatExactly n a) i c j c' -> cstart c i -> cstart c' j.
Proof.
  induction n as [|n IHn]; intros i c j c' H Hc; inversion H; subst; eauto.
Qed.

Lemma Mat_cstart r : forall i c j c', Mat r i c j c' -> cstart c i -> cstart c' j.
Proof.
  unfold cstart.
  induction r; intros i c0 j c0' H Hc; inversion H; subst; eauto; try lia;
    try (eapply Mat_cstart_iter; eauto; fail).
  - exact (Mat_cstart_iter r IHr _ _ _ _ _ H Hc).
  - cbn [fst]. match goal with H : Mat r _ _ _ _ |- _ => apply IHr in H; auto end.
Qed.

Lemma Mat_cwf_iter a (IH : forall i c j c', Mat a i c j c' -> cwf c i -> cwf c' j) :
  forall n i c j c', Mat (RRepeatExactly n a) i c j c' -> cwf c i -> cwf c' j.
Proof.
  induction n as [|n IHn]; intros i c j c' H Hc; inversion H; subst; eauto.
Qed.

Lemma Mat_cwf r : forall i c j c', Mat r i c j c' -> cwf c i -> cwf c' j.
Proof.
  unfold cwf.
  induction r; intros i c0 j c0' H Hc; inversion H; subst; eauto; try lia;
    try (eapply Mat_cwf_iter; eauto; fail).
  1: exact (Mat_cwf_iter r IHr _ _ _ _ _ H Hc).
  cbn [fst snd]. split; [|lia].
  match goal with H : Mat r _ _ _ _ |- _ => apply (Mat_cstart r _ _ _ _ H) end. unfold cstart; cbn; lia.
Qed.

End RunMat.

(** ** The main theorem on [regexp_find] *)

Lemma run_match_end lower env at_start prog K input q t n i c o :
  nth_error prog q = Some (IMatch t) ->
  Run lower env at_start prog K input n q i c o -> o = (c, i, t).
Proof.
  intros Hq Hr. inversion Hr; subst.
  - rewrite Hq in H; inversion H; subst. reflexivity.
  - rewrite Hq in H; inversion H; subst. discriminate.
  - rewrite Hq in H; inversion H; subst. unfold consumes in H0. cbn in H0. discriminate.
Qed.

(** As the code reports it: capture text, consumed length, chars before it. *)
Definition report (input : str) (s e j : nat) : found :=
  {| f_capture := firstn (e - s) (skipn s input); f_length := j; f_offset := s; f_index := 0 |}.

Theorem find_spec_no_range lower env at_start r input :
  no_range r = true ->
  exists o, regexp_find lower r env at_start input = Ok o /\
    match o with
    | None => forall j c, ~ Mat lower env at_start input r 0 (0,0) j c
    | Some f => exists j s e, Mat lower env at_start input r 0 (0,0) j (s, e) /\
        s <= e /\ e <= j /\ j <= length input /\ f = report input s e j
    end.
Proof.
  intros Hnr. unfold regexp_find.
  destruct (compile_seg r) as (q & Hseg & Hm & Hl).
  set (prog := fst (compile r)) in *. set (K := snd (compile r)) in *.
  destruct (vm_spec lower env at_start prog K input (compile_wf r)) as (m & Em & Hspec).
  unfold find_anchored.
  destruct (add_thread env at_start prog (at_fuel prog) ([], []) 0 (0, 0) 0 (blen input)) as [tl| |] eqn:Et;
    cbn [bind] in Em |- *; try discriminate.
  rewrite Em. cbn [bind].
  destruct m as [[[bc len] t]|].
  - destruct Hspec as (c & n & -> & Hrun).
    destruct (seg_sound lower env at_start prog K input r Hnr _ _ _ _ _ _ Hseg Hrun) as (j & c' & n' & HM & _ & Hr').
    apply (run_match_end _ _ _ _ _ _ _ _ _ _ _ _ Hm) in Hr'. inversion Hr'; subst; clear Hr'.
    destruct c' as [s e].
    assert (Hj : j <= length input) by (eapply Mat_end; [|exact HM]; lia).
    assert (Hw : cwf (s, e) j) by (eapply Mat_cwf; [exact HM|split; simpl; lia]).
    destruct Hw as [Hw1 Hw2]; cbn [fst snd] in *.
    unfold bcap. cbn [fst snd].
    rewrite slice_boff by lia. cbn [opt_res bind].
    rewrite slice_to_boff by lia. cbn [opt_res bind].
    eexists. split; [reflexivity|].
    exists j, s, e. repeat split; auto.
    unfold report. f_equal. rewrite firstn_length. lia.
  - exists None. split; [reflexivity|]. intros j c HM.
    destruct (seg_complete lower env at_start prog K input r Hnr 0 q 0 0 (0,0) j c (c, j, 0) Hseg HM) as (n & Hrun).
    { apply R_match. exact Hm. }
    eapply Hspec. exact Hrun.
Qed.

(** ** Ranges *)

Lemma repeat_emit_ext n f g : (forall s, f s = g s) -> forall s, repeat_emit n f s = repeat_emit n g s.
Proof. intros H. induction n as [|n IH]; intros s; simpl; [reflexivity|]. rewrite H. apply IH. Qed.

Lemma emit_as_compiled r : forall s, emit (as_compiled r) s = emit r s.
Proof.
  induction r; intros s0; cbn [as_compiled emit]; try reflexivity;
    rewrite ?IHr1, ?IHr2, ?IHr; try reflexivity.
  - apply repeat_emit_ext, IHr.
  - rewrite (repeat_emit_ext n (emit (as_compiled r)) (emit r)) by exact IHr. reflexivity.
  - rewrite (repeat_emit_ext n (emit (as_compiled r)) (emit r)) by exact IHr.
    cbn zeta. rewrite (repeat_emit_ext (m - n) (emit (as_compiled r)) (emit r)) by exact IHr.
    reflexivity.
Qed.

Lemma no_range_as_compiled r : no_range (as_compiled r) = true.
Proof.
  induction r; cbn [as_compiled no_range]; auto; rewrite ?IHr1, ?IHr2, ?IHr; auto.
Qed.

Lemma as_compiled_id r : no_range r = true -> as_compiled r = r.
Proof.
  induction r; cbn [as_compiled no_range]; intros H; try discriminate; auto;
    try (apply andb_prop in H; destruct H);
    rewrite ?IHr1, ?IHr2, ?IHr by auto; reflexivity.
Qed.

Lemma regexp_find_as_compiled lower env at_start r input :
  regexp_find lower r env at_start input = regexp_find lower (as_compiled r) env at_start input.
Proof. unfold regexp_find, compile. rewrite emit_as_compiled. reflexivity. Qed.

Theorem find_spec lower env at_start r input :
  exists o, regexp_find lower r env at_start input = Ok o /\
    match o with
    | None => forall j c, ~ Mat lower env at_start input (as_compiled r) 0 (0,0) j c
    | Some f => exists j s e, Mat lower env at_start input (as_compiled r) 0 (0,0) j (s, e) /\
        s <= e /\ e <= j /\ j <= length input /\ f = report input s e j
    end.
Proof.
  rewrite regexp_find_as_compiled. apply find_spec_no_range, no_range_as_compiled.
Qed.
