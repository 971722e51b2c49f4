(** The position restrictions are what ConstraintSpec.v says. *)
From Verif Require Import Base BaseProofs RuleModel TranslationModel TableModel TrieModel HyphenationModel
  HyphenationProofs LoopModel CompileModel ConstraintModel ConstraintSpec.

Lemma mem_In c l : mem c l = true <-> In c l.
Proof.
  unfold mem. rewrite existsb_exists. split; [intros (y & H & E); apply N.eqb_eq in E; subst; exact H|].
  intros H. exists c. split; [exact H|apply N.eqb_refl].
Qed.
Lemma mem_nIn c l : mem c l = false <-> ~ In c l.
Proof. rewrite <- mem_In. destruct (mem c l); split; congruence. Qed.
Lemma at_in_cons c s q l : at_in (c :: s) (S q) l <-> at_in s q l.
Proof. reflexivity. Qed.
Lemma at_in_0 c s l : at_in (c :: s) 0 l <-> In c l.
Proof. split; [intros (x & [= ->] & H); exact H|intros H; exists c; auto]. Qed.
Lemma at_in_nil p l : ~ at_in [] p l.
Proof. intros (c & E & _). destruct p; discriminate. Qed.
Lemma at_in_lt chars p l : at_in chars p l -> p < length chars.
Proof. intros (c & E & _). apply nth_error_Some. congruence. Qed.
Lemma at_in_none chars p : ~ at_in chars p [].
Proof. intros (c & _ & []). Qed.

(** ** Numbers *)
Section Numeric.
Variable u : numeric_chars.
Notation D := (nu_digits u).
Lemma goes_on_cons c s q : number_goes_on u (c :: s) (S q) <-> number_goes_on u s q.
Proof. unfold number_goes_on. rewrite !at_in_cons. reflexivity. Qed.
Lemma in_number_0 c s : in_number u (c :: s) 0 <-> In c D.
Proof.
  split.
  - intros (st & H & A & _). assert (st = 0) by lia. subst. apply at_in_0 in A. exact A.
  - intros H. exists 0. split; [lia|]. split; [apply at_in_0, H|]. intros; lia.
Qed.
(** the number at [p] with a number going on before the text or not *)
Definition numbered (inn : bool) (chars : str) (p : nat) : Prop :=
  in_number u chars p \/ (inn = true /\ forall q, q <= p -> number_goes_on u chars q).
Lemma numbered_false chars p : numbered false chars p <-> in_number u chars p.
Proof. split; [intros [H|[[=] _]]; exact H|left; assumption]. Qed.
Lemma numbered_S inn c s p : numbered inn (c :: s) (S p) <->
  numbered false s p \/ numbered inn (c :: s) 0 /\ (forall q, q <= p -> number_goes_on u s q).
Proof.
  unfold numbered. split.
  - intros [(st & H & A & G)|[-> G]].
    + destruct st as [|st].
      * right. split; [left; exists 0; split; [lia|]; split; [exact A|]; intros; lia|].
        intros q Hq. specialize (G (S q)). rewrite goes_on_cons in G. apply G. lia.
      * left. left. exists st. split; [lia|]. rewrite at_in_cons in A. split; [exact A|].
        intros q Hq. specialize (G (S q)). rewrite goes_on_cons in G. apply G. lia.
    + right. split; [right; split; [reflexivity|]; intros q Hq; apply G; lia|].
      intros q Hq. specialize (G (S q)). rewrite goes_on_cons in G. apply G. lia.
  - intros [[H|[[=] _]]|[[H|[-> G0]] G]].
    + left. destruct H as (st & H & A & G). exists (S st). split; [lia|]. rewrite at_in_cons. split; [exact A|].
      intros [|q] Hq; [lia|]. rewrite goes_on_cons. apply G. lia.
    + left. destruct H as (st & H & A & _). assert (st = 0) by lia. subst. exists 0. split; [lia|]. split; [exact A|].
      intros [|q] Hq; [lia|]. rewrite goes_on_cons. apply G. lia.
    + right. split; [reflexivity|]. intros [|q] Hq; [apply G0; lia|]. rewrite goes_on_cons. apply G. lia.
Qed.
(** one step of the loops *)
Definition numeric_step (inn : bool) (c : char) (r : str) : bool :=
  (mem c D || (inn && mem c (nu_extra u)) ||
   (inn && is_empty (nu_extra u) && mem c (nu_mid u) && match r with c' :: _ => mem c' D | [] => false end))%bool.
Lemma numeric_step_spec inn c r : numeric_step inn c r = true <-> numbered inn (c :: r) 0.
Proof.
  unfold numeric_step, numbered, number_goes_on. rewrite in_number_0, !orb_true_iff, !andb_true_iff, !mem_In. split.
  - intros [[H|[-> H]]|[[[-> E] H] H2]]; [auto|right; split; [reflexivity|]|right; split; [reflexivity|]].
    + intros q Hq. assert (q = 0) by lia. subst. right. left. apply at_in_0, H.
    + intros q Hq. assert (q = 0) by lia. subst. right. right.
      split; [destruct (nu_extra u); [reflexivity|discriminate]|].
      split; [apply at_in_0, H|]. destruct r as [|c' r]; [discriminate|]. apply at_in_cons, at_in_0, mem_In, H2.
  - intros [H|[-> G]]; [auto|]. destruct (G 0 (le_n 0)) as [H|[H|(E & H & H2)]].
    + apply at_in_0 in H. auto.
    + apply at_in_0 in H. auto.
    + right. rewrite E. repeat split; auto. { apply at_in_0 in H. exact H. }
      rewrite at_in_cons in H2. destruct r as [|c' r]; [destruct (at_in_nil _ _ H2)|]. apply mem_In. apply at_in_0 in H2. exact H2.
Qed.
Lemma numeric_marks_step inn c r : numeric_marks u inn (c :: r) =
  numeric_step inn c r :: numeric_marks u (numeric_step inn c r) r.
Proof.
  unfold numeric_step. cbn [numeric_marks]. destruct (mem c D); [reflexivity|]. cbn [orb].
  destruct (inn && mem c (nu_extra u))%bool; [reflexivity|]. cbn [orb].
  destruct (inn && is_empty (nu_extra u) && mem c (nu_mid u) && _)%bool; reflexivity.
Qed.
Lemma numeric_marks_spec chars : forall inn p, nth p (numeric_marks u inn chars) false = true <-> numbered inn chars p /\ p < length chars.
Proof.
  induction chars as [|c r IH]; intros inn p.
  - cbn [numeric_marks length]. split; [destruct p; discriminate|intros [_ H]; lia].
  - rewrite numeric_marks_step. destruct p as [|p]; cbn [nth length].
    + rewrite numeric_step_spec. split; [intros H; split; [exact H|lia]|intros [H _]; exact H].
    + rewrite IH, numbered_S, <- numeric_step_spec. unfold numbered at 1.
      rewrite numbered_false. rewrite <- Nat.succ_lt_mono. tauto.
Qed.
Lemma numeric_marks_length inn chars : length (numeric_marks u inn chars) = length chars.
Proof. revert inn. induction chars as [|c r IH]; intros inn; [reflexivity|]. rewrite numeric_marks_step. cbn [length]. rewrite IH. reflexivity. Qed.
Lemma in_number_lt chars p : in_number u chars p -> p < length chars.
Proof.
  intros (s & H & A & G). destruct (Nat.eq_dec s p) as [->|N]; [eapply at_in_lt, A|].
  destruct (G p) as [X|[X|(_ & X & _)]]; [lia|..]; eapply at_in_lt, X.
Qed.
Lemma protected_spec chars p : nth p (numeric_marks u false chars) false = true <-> in_number u chars p.
Proof.
  rewrite numeric_marks_spec, numbered_false. split; [intros [H _]; exact H|]. intros H. split; [exact H|eapply in_number_lt, H].
Qed.
End Numeric.

(** ** Punctuation *)
Lemma scan_spec u s : scan u s = true <-> exists k, at_in s k (pc_word u) /\
  forall j, j < k -> ~ at_in s j (pc_word u) /\ ~ at_in s j (pc_space u).
Proof.
  induction s as [|c r IH]; cbn [scan].
  - split; [discriminate|]. intros (k & H & _). destruct (at_in_nil _ _ H).
  - destruct (mem c (pc_word u)) eqn:E.
    + split; [|reflexivity]. intros _. exists 0. split; [apply at_in_0, mem_In, E|]. intros; lia.
    + apply mem_nIn in E. destruct (mem c (pc_space u)) eqn:E2.
      * split; [discriminate|]. intros ([|k] & H & G); [apply at_in_0 in H; contradiction|].
        destruct (G 0) as [_ X]; [lia|]. exfalso. apply X, at_in_0, mem_In, E2.
      * apply mem_nIn in E2. rewrite IH. split.
        -- intros (k & H & G). exists (S k). split; [exact H|]. intros [|j] Hj; [rewrite !at_in_0; auto|].
           rewrite !at_in_cons. apply G. lia.
        -- intros ([|k] & H & G); [apply at_in_0 in H; contradiction|]. exists k. split; [exact H|].
           intros j Hj. specialize (G (S j)). rewrite !at_in_cons in G. apply G. lia.
Qed.
Lemma at_in_skipn chars n j l : at_in (skipn n chars) j l <-> at_in chars (n + j) l.
Proof.
  unfold at_in. revert chars. induction n as [|n IH]; intros chars; [reflexivity|].
  destruct chars as [|c r]; cbn [skipn plus nth_error]; [|apply IH].
  split; intros (x & E & _); exfalso; [destruct j|]; discriminate.
Qed.
Lemma at_in_app chars a b l : at_in (a ++ b) chars l <-> at_in a chars l \/ (length a <= chars /\ at_in b (chars - length a) l).
Proof.
  unfold at_in. destruct (Nat.lt_ge_cases chars (length a)) as [H|H].
  - rewrite nth_error_app1 by exact H. split; [auto|]. intros [X|[X _]]; [exact X|lia].
  - rewrite nth_error_app2 by exact H. split; [auto|]. intros [(c & E & _)|[_ X]]; [|exact X].
    apply nth_error_None in H. congruence.
Qed.
Lemma at_in_firstn chars n j l : at_in (firstn n chars) j l <-> j < n /\ at_in chars j l.
Proof.
  unfold at_in. revert chars j. induction n as [|n IH]; intros chars j.
  - split; [intros (x & E & _); destruct j; discriminate|lia].
  - destruct chars as [|c r]; [cbn [firstn]; split; [intros (x & E & _); destruct j; discriminate|intros (_ & x & E & _); destruct j; discriminate]|].
    destruct j as [|j]; cbn [firstn nth_error]; [split; [intros H; split; [lia|exact H]|tauto]|].
    rewrite IH. rewrite <- Nat.succ_lt_mono. reflexivity.
Qed.
Lemma at_in_rev chars j l : at_in (rev chars) j l <-> j < length chars /\ at_in chars (length chars - S j) l.
Proof.
  revert j. induction chars as [|c r IH]; intros j; cbn [rev length].
  - split; [intros H; destruct (at_in_nil _ _ H)|lia].
  - rewrite at_in_app, IH, rev_length. replace (S (length r) - S j) with (length r - j) by lia. split.
    + intros [[H A]|[H A]].
      * split; [lia|]. replace (length r - j) with (S (length r - S j)) by lia. exact A.
      * assert (j - length r = 0) by (apply at_in_lt in A; simpl in A; lia).
        assert (j = length r) by lia. subst. rewrite Nat.sub_diag in *. apply at_in_0 in A. split; [lia|apply at_in_0, A].
    + intros [H A]. destruct (Nat.eq_dec j (length r)) as [->|N].
      * right. rewrite Nat.sub_diag in *. split; [lia|]. apply at_in_0 in A. apply at_in_0, A.
      * left. split; [lia|]. replace (length r - j) with (S (length r - S j)) in A by lia. exact A.
Qed.
Lemma char_before_spec chars pos l : not_in l (char_before chars pos) = true <-> ~ before_in chars pos l.
Proof.
  unfold before_in, char_before, not_in, at_in. destruct pos as [|q]; [split; [intros _ (q & [=] & _)|reflexivity]|].
  destruct (nth_error chars q) as [c|] eqn:E.
  - rewrite negb_true_iff, mem_nIn. split.
    + intros H (q' & [= <-] & c' & E' & H'). rewrite E in E'. injection E' as <-. contradiction.
    + intros H Hc. apply H. exists q. split; [reflexivity|]. exists c. auto.
  - split; [|reflexivity]. intros _ (q' & [= <-] & c' & E' & _). congruence.
Qed.
Lemma not_in_at chars pos l : not_in l (nth_error chars pos) = true <-> ~ at_in chars pos l.
Proof.
  unfold not_in, at_in. destruct (nth_error chars pos) as [c|] eqn:E0.
  - rewrite negb_true_iff, mem_nIn. split; [intros H (x & E & Hx); pose proof (eq_trans (eq_sym E) E0) as E1; injection E1 as ->; subst; contradiction|]. intros H Hc. apply H. exists c. auto.
  - split; [intros _ (x & E & _); pose proof (eq_trans (eq_sym E) E0); discriminate|reflexivity].
Qed.
Lemma prepunc_spec u chars pos : prepunc_mark u chars pos = true <->
  ~ before_in chars pos (pc_letters u) /\ word_follows u chars pos.
Proof.
  unfold prepunc_mark, word_follows. rewrite andb_true_iff, char_before_spec, scan_spec. apply and_iff_compat_l. split.
  - intros (k & H & G). exists (S pos + k). rewrite at_in_skipn in H. split; [lia|]. split; [exact H|].
    intros j Hj. specialize (G (j - S pos)). rewrite !at_in_skipn in G. replace (S pos + (j - S pos)) with j in G by lia. apply G. lia.
  - intros (k & L & H & G). exists (k - S pos). rewrite at_in_skipn. replace (S pos + (k - S pos)) with k by lia. split; [exact H|].
    intros j Hj. rewrite !at_in_skipn. apply G. lia.
Qed.
Lemma postpunc_spec u chars pos : pos <= length chars -> postpunc_mark u chars pos = true <->
  ~ at_in chars (S pos) (pc_letters u) /\ word_precedes u chars pos.
Proof.
  intros L. unfold postpunc_mark, word_precedes. rewrite andb_true_iff, not_in_at, scan_spec. apply and_iff_compat_l.
  assert (FL : length (firstn pos chars) = pos) by (apply firstn_length_le; exact L).
  assert (X : forall j l, at_in (rev (firstn pos chars)) j l <-> j < pos /\ at_in chars (pos - S j) l).
  { intros j l. rewrite at_in_rev, FL, at_in_firstn. split; [tauto|]. intros [A B]. split; [exact A|]. split; [lia|exact B]. }
  split.
  - intros (k & H & G). apply X in H. destruct H as [Hk H]. exists (pos - S k). split; [lia|]. split; [exact H|].
    intros j Hj. specialize (G (pos - S j)). rewrite !X in G. replace (pos - S (pos - S j)) with j in G by lia.
    destruct G as [G1 G2]; [lia|]. split; intros A; [apply G1|apply G2]; (split; [lia|exact A]).
  - intros (k & Hk & H & G). exists (pos - S k). rewrite X. replace (pos - S (pos - S k)) with k by lia.
    split; [split; [lia|exact H]|]. intros j Hj. rewrite !X. destruct (G (pos - S j)) as [G1 G2]; [lia|].
    split; intros [_ A]; auto.
Qed.

(** ** Computer braille *)
Lemma str_eqb_eq' a b : str_eqb a b = true <-> a = b.
Proof.
  unfold str_eqb. revert b. induction a as [|x a IH]; intros [|y b]; cbn [list_eqb]; try (split; [discriminate|congruence]); [tauto|].
  rewrite andb_true_iff, N.eqb_eq, IH. split; [intros [-> ->]; reflexivity|intros [= -> ->]; auto].
Qed.
Lemma comp_mark_spec spans n p : p < n -> comp_mark spans n p = true <-> in_comp_span spans p.
Proof.
  intros L. unfold comp_mark, in_comp_span. rewrite existsb_exists. split.
  - intros (s & H & E). rewrite !andb_true_iff, str_eqb_eq', Nat.leb_le, Nat.ltb_lt in E. exists s. split; [exact H|]. split; [apply E|lia].
  - intros (s & H & E & A & B). exists s. split; [exact H|]. rewrite !andb_true_iff, str_eqb_eq', Nat.leb_le, Nat.ltb_lt. split; [auto|lia].
Qed.

(** ** Hyphenation *)
Lemma mark_breaks_spec n bs : forall st, st + length bs <= n -> exists l, mark_breaks n st bs = Ok l /\
  forall p, In p l <-> st <= p /\ nth (p - st) bs false = true.
Proof.
  induction bs as [|b r IH]; intros st L.
  - exists []. split; [reflexivity|]. intros p. split; [intros []|]. intros [_ H]. destruct (p - st); discriminate.
  - cbn [mark_breaks length] in *. destruct (IH (S st)) as (l & -> & Hl); [lia|]. cbn [bind].
    assert (X : forall p, In p l <-> S st <= p /\ nth (p - st) (b :: r) false = true).
    { intros p. rewrite Hl. split; intros [A B]; (split; [exact A|]); replace (p - st) with (S (p - S st)) in * by lia; exact B. }
    assert (Y : forall p, st <= p /\ nth (p - st) (b :: r) false = true <-> (p = st /\ b = true) \/ In p l).
    { intros p. rewrite X. split.
      - intros [A B]. destruct (Nat.eq_dec p st) as [->|N]; [rewrite Nat.sub_diag in B; auto|]. right. split; [lia|exact B].
      - intros [[-> ->]|[A B]]; [rewrite Nat.sub_diag; auto|]. split; [lia|exact B]. }
    destruct b.
    + destruct (Nat.ltb_spec st n); [|lia]. exists (st :: l). split; [reflexivity|]. intros p. rewrite Y. cbn [In].
      split; [intros [->|H1]; auto|intros [[-> _]|H1]; auto].
    + exists l. split; [reflexivity|]. intros p. rewrite Y. split; [auto|]. intros [[_ [=]]|H]; exact H.
Qed.
Section Hyphen.
Variable h : hyph.
Variable letters : list char.
Variable chars : str.
Hypothesis WF : wf_patterns (h_patterns h).
Lemma mark_word_spec s e : word_at letters chars s e -> exists l bs,
  mark_word h chars s e = Ok l /\ break_points h (firstn (e - s) (skipn s chars)) = Ok bs /\
  forall p, In p l <-> s <= p /\ nth (p - s) bs false = true.
Proof.
  intros (A & B & _). unfold mark_word.
  destruct (break_points_spec h (firstn (e - s) (skipn s chars)) WF) as (bs & E & L & _). rewrite E. cbn [bind].
  destruct (mark_breaks_spec (length chars) bs s) as (l & El & Hl).
  { rewrite L, firstn_length, skipn_length. unfold char in *. lia. }
  exists l, bs. auto.
Qed.
(** two words at the same place are the same *)
Lemma word_at_same s e s' e' p : word_at letters chars s e -> word_at letters chars s' e' -> s <= p < e -> s' <= p < e' -> s = s' /\ e = e'.
Proof.
  intros (A & B & C & D & E) (A' & B' & C' & D' & E') H H'. split.
  - destruct (Nat.lt_trichotomy s s') as [L|[L|L]]; [exfalso|exact L|exfalso].
    + apply D'. exists (s' - 1). split; [lia|]. apply C. lia.
    + apply D. exists (s - 1). split; [lia|]. apply C'. lia.
  - destruct (Nat.lt_trichotomy e e') as [L|[L|L]]; [exfalso|exact L|exfalso].
    + apply E, C'. lia.
    + apply E', C. lia.
Qed.
Lemma nth_true_lt (bs : list bool) i : nth i bs false = true -> i < length bs.
Proof.
  intros H. destruct (Nat.lt_ge_cases i (length bs)) as [L|L]; [exact L|]. rewrite nth_overflow in H by exact L. discriminate.
Qed.
(** breaks of the words that begin at [pos] or later, or at [st] *)
Definition breaks_from (pos : nat) (ws : option nat) (p : nat) : Prop :=
  exists s e bs, word_at letters chars s e /\ (pos <= s \/ ws = Some s) /\ s <= p /\
    break_points h (firstn (e - s) (skipn s chars)) = Ok bs /\ nth (p - s) bs false = true.
Definition pending (pos : nat) (ws : option nat) : Prop :=
  match ws with
  | Some st => st < pos /\ (forall q, st <= q < pos -> at_in chars q letters) /\ ~ before_in chars st letters
  | None => ~ before_in chars pos letters
  end.
Lemma hyphen_loop_spec s : forall pos ws, skipn pos chars = s -> pos <= length chars -> pending pos ws ->
  exists l, hyphen_loop h letters chars s pos ws = Ok l /\ forall p, In p l <-> breaks_from pos ws p.
Proof.
  induction s as [|c r IH]; intros pos ws ES PL PE; cbn [hyphen_loop].
  - assert (EP : pos = length chars).
    { apply (f_equal (@length _)) in ES. rewrite skipn_length in ES. simpl in ES. unfold char in *. lia. }
    assert (NE : ~ at_in chars pos letters) by (intros H; apply at_in_lt in H; unfold char in *; lia).
    destruct ws as [st|].
    + destruct PE as (P1 & P2 & P3). assert (W : word_at letters chars st pos) by (repeat split; auto; unfold char in *; lia).
      rewrite <- EP. destruct (mark_word_spec _ _ W) as (l & bs & -> & Eb & Hl). exists l. split; [reflexivity|].
      intros p. rewrite Hl. split.
      * intros [A B]. exists st, pos, bs. auto 6.
      * intros (s & e & bs' & W' & O & A & Eb' & B). destruct O as [O|[= ->]].
        { exfalso. destruct W' as (X & Y & _). unfold char in *. lia. }
        destruct (word_at_same _ _ _ _ s W' W) as [_ ->]; [destruct W'; lia|lia|]. rewrite Eb in Eb'. injection Eb' as <-. auto.
    + exists []. split; [reflexivity|]. intros p. split; [intros []|]. intros (s & e & bs & W & O & _).
      destruct O as [O|[=]]. destruct W as (X & Y & _). unfold char in *. lia.
  - assert (EN : nth_error chars pos = Some c).
    { rewrite <- (firstn_skipn pos chars), nth_error_app2 by (rewrite firstn_length; lia).
      rewrite ES, firstn_length. replace (pos - Nat.min pos (length chars)) with 0 by lia. reflexivity. }
    assert (EL : pos < length chars) by (apply nth_error_Some; congruence).
    assert (ES' : skipn (S pos) chars = r) by (pose proof (skipn_skipn' chars 1 pos) as X; rewrite ES in X; symmetry; exact X).
    destruct (mem c letters) eqn:EM.
    + apply mem_In in EM. assert (AI : at_in chars pos letters) by (exists c; auto).
      destruct ws as [st|].
      * destruct PE as (P1 & P2 & P3). destruct (IH (S pos) (Some st)) as (l & -> & Hl); auto.
        { split; [lia|]. split; [|exact P3]. intros q Hq. destruct (Nat.eq_dec q pos) as [->|]; [exact AI|apply P2; lia]. }
        exists l. split; [reflexivity|]. intros p. rewrite Hl. split.
        -- intros (s & e & bs & W & O & A). exists s, e, bs. split; [exact W|]. split; [destruct O; [left; lia|auto]|exact A].
        -- intros (s & e & bs & W & O & A). exists s, e, bs. split; [exact W|]. split; [|exact A].
           destruct O as [O|O]; [|auto]. destruct (Nat.eq_dec s pos) as [->|]; [exfalso|left; lia].
           destruct W as (_ & _ & _ & NB & _). apply NB. exists (pos - 1). split; [lia|]. apply P2. lia.
      * destruct (IH (S pos) (Some pos)) as (l & -> & Hl); auto.
        { split; [lia|]. split; [|exact PE]. intros q Hq. replace q with pos by lia. exact AI. }
        exists l. split; [reflexivity|]. intros p. rewrite Hl. split.
        -- intros (s & e & bs & W & O & A). exists s, e, bs. split; [exact W|]. split; [|exact A]. left.
           destruct O as [O|[= ->]]; lia.
        -- intros (s & e & bs & W & O & A). exists s, e, bs. split; [exact W|]. split; [|exact A].
           destruct O as [O|[=]]. destruct (Nat.eq_dec s pos) as [->|]; [auto|left; lia].
    + apply mem_nIn in EM. assert (AI : ~ at_in chars pos letters).
      { intros (c' & E' & H'). rewrite EN in E'. injection E' as <-. contradiction. }
      assert (NB : ~ before_in chars (S pos) letters) by (intros (q & [= <-] & H); contradiction).
      destruct (IH (S pos) None) as (l & El & Hl); auto.
      destruct ws as [st|].
      * destruct PE as (P1 & P2 & P3). assert (W : word_at letters chars st pos) by (repeat split; auto; lia).
        destruct (mark_word_spec _ _ W) as (l1 & bs & -> & Eb & Hl1). cbn [bind]. rewrite El. cbn [bind].
        exists (l1 ++ l). split; [reflexivity|]. intros p. rewrite in_app_iff, Hl1, Hl. split.
        -- intros [[A B]|(s & e & bs' & W' & O & A)]; [exists st, pos, bs; auto 6|].
           exists s, e, bs'. split; [exact W'|]. split; [|exact A]. destruct O as [O|[=]]. left. lia.
        -- intros (s & e & bs' & W' & O & A & Eb' & B). destruct O as [O|[= ->]].
           { right. exists s, e, bs'. split; [exact W'|]. split; [|auto]. destruct (Nat.eq_dec s pos) as [->|]; [exfalso|left; lia].
             destruct W' as (X & Y & Z & _). apply AI, Z. lia. }
           left. destruct (word_at_same _ _ _ _ s W' W) as [_ ->]; [destruct W'; lia|lia|]. rewrite Eb in Eb'. injection Eb' as <-. auto.
      * exists l. split; [exact El|]. intros p. rewrite Hl. split.
        -- intros (s & e & bs & W & O & A). exists s, e, bs. split; [exact W|]. split; [|exact A]. destruct O as [O|[=]]. left; lia.
        -- intros (s & e & bs & W & O & A). exists s, e, bs. split; [exact W|]. split; [|exact A]. destruct O as [O|[=]].
           left. destruct (Nat.eq_dec s pos) as [->|]; [exfalso|lia]. destruct W as (X & Y & Z & _). apply AI, Z. lia.
Qed.
Lemma hyphen_marks_spec : exists l, hyphen_marks h letters chars = Ok l /\ forall p, In p l <-> break_behind h letters chars p.
Proof.
  destruct (hyphen_loop_spec chars 0 None) as (l & E & H); auto; [lia|intros (q & [=] & _)|].
  exists l. split; [exact E|]. intros p. rewrite H. split.
  - intros (s & e & bs & W & _ & A). exists s, e, bs. auto.
  - intros (s & e & bs & W & A). exists s, e, bs. split; [exact W|]. split; [left; lia|exact A].
Qed.
End Hyphen.

(** ** Capitals *)
Lemma starts_with_spec s d : starts_with s d = true <-> exists r, s = d ++ r.
Proof.
  revert s. induction d as [|x d IH]; intros [|c s]; cbn [starts_with].
  - split; [exists []; reflexivity|reflexivity].
  - split; [exists (c :: s); reflexivity|reflexivity].
  - split; [discriminate|intros (r & [=])].
  - rewrite andb_true_iff, N.eqb_eq, IH. split; [intros [-> (r & ->)]; exists r; reflexivity|].
    intros (r & E). injection E as -> ->. split; [reflexivity|exists r; reflexivity].
Qed.
Lemma matches_opt_spec s o : matches_opt s o = true <-> begins s o.
Proof.
  unfold matches_opt, begins. destruct o as [d|]; [|split; [discriminate|intros (d & r & [=] & _)]].
  rewrite starts_with_spec. split; [intros (r & E); exists d, r; auto|intros (d' & r & [= ->] & E); exists r; exact E].
Qed.
Lemma matches_opt_nspec s o : matches_opt s o = false <-> ~ begins s o.
Proof. rewrite <- matches_opt_spec. destruct (matches_opt s o); split; congruence. Qed.
Lemma skipn_app_add (chars a r : str) pos : skipn pos chars = a ++ r -> skipn (pos + length a) chars = r.
Proof.
  intros E. pose proof (skipn_skipn' chars (length a) pos) as X. unfold char in *. rewrite E in X.
  rewrite Nat.add_comm, <- X, skipn_app, skipn_all, Nat.sub_diag. reflexivity.
Qed.
Section Caps.
Variable u : caps_cells.
Variable chars : str.
Lemma caps_word_spec fuel : forall s pos, skipn pos chars = s -> length s < fuel -> exists marks letters close rest,
  caps_word u chars fuel pos = Ok (marks, pos + length (letters ++ opt_str close)) /\
  s = letters ++ opt_str close ++ rest /\
  (forall l1 l2, letters = l1 ++ l2 -> l2 <> [] -> ~ begins (l2 ++ opt_str close ++ rest) (bc_endword u)) /\
  (forall c, In c letters -> In c (bc_cells u)) /\
  match close with
  | Some e => bc_endword u = Some e
  | None => ~ begins rest (bc_endword u) /\ ~ at_in rest 0 (bc_cells u)
  end /\
  (forall p, In p marks <-> pos <= p < pos + length letters).
Proof.
  induction fuel as [|f IH]; intros s pos ES L; [lia|]. cbn [caps_word]. rewrite ES.
  destruct (matches_opt s (bc_endword u)) eqn:EE.
  - apply matches_opt_spec in EE. destruct EE as (d & r & E1 & E2). exists [], [], (Some d), r.
    rewrite E1. cbn [opt_str opt_len app]. split; [reflexivity|]. split; [exact E2|].
    split; [intros l1 l2 X; destruct l1, l2; try discriminate; congruence|]. split; [intros c []|]. split; [reflexivity|].
    intros p. cbn [In length]. lia.
  - apply matches_opt_nspec in EE.
    assert (STOP : ~ at_in s 0 (bc_cells u) -> exists marks letters close rest,
      Ok ([], pos) = @Ok (list nat * nat) (marks, pos + length (letters ++ opt_str close)) /\
      s = letters ++ opt_str close ++ rest /\
      (forall l1 l2, letters = l1 ++ l2 -> l2 <> [] -> ~ begins (l2 ++ opt_str close ++ rest) (bc_endword u)) /\
      (forall c, In c letters -> In c (bc_cells u)) /\
      match close with
      | Some e => bc_endword u = Some e
      | None => ~ begins rest (bc_endword u) /\ ~ at_in rest 0 (bc_cells u)
      end /\ (forall p, In p marks <-> pos <= p < pos + length letters)).
    { intros NA. exists [], [], None, s. cbn [opt_str app length]. rewrite Nat.add_0_r. split; [reflexivity|]. split; [reflexivity|].
      split; [intros l1 l2 X; destruct l1, l2; try discriminate; congruence|]. split; [intros c []|]. split; [auto|].
      intros p. cbn [In]. lia. }
    destruct s as [|c r]; [apply STOP, at_in_nil|]. destruct (mem c (bc_cells u)) eqn:EM.
    + apply mem_In in EM. destruct (IH r (S pos)) as (marks & letters & close & rest & -> & E2 & H1 & H2 & H3 & H4).
      { apply (skipn_app_add chars [c] r pos) in ES. cbn [length] in ES. rewrite Nat.add_1_r in ES. exact ES. }
      { simpl in L. lia. }
      cbn [bind fst snd]. exists (pos :: marks), (c :: letters), close, rest.
      split; [cbn [length app]; rewrite <- Nat.add_succ_comm; reflexivity|]. split; [cbn [app]; rewrite <- E2; reflexivity|].
      split.
      { intros [|c' l1] l2 X NE; cbn [app] in X; [subst l2; cbn [app]; rewrite <- E2; exact EE|].
        injection X as _ X. apply (H1 l1 l2 X NE). }
      split; [intros c' [<-|Hc]; auto|]. split; [exact H3|]. intros p. cbn [In length]. rewrite H4. lia.
    + apply mem_nIn in EM. apply STOP. rewrite at_in_0. exact EM.
Qed.
Hypothesis NL : forall d, bc_letter u = Some d -> d <> [].
Hypothesis NB : forall d, bc_begword u = Some d -> d <> [].
Lemma caps_loop_spec fuel : forall s pos, skipn pos chars = s -> pos + length s = length chars -> length s < fuel ->
  exists ups tis ts, caps_loop u chars fuel pos = Ok (ups, tis) /\ flat_map token_text ts = s /\ caps_read u ts /\
    (forall p, In p ups <-> exists q, p = pos + q /\ upper_position ts q) /\
    (forall p, In p tis <-> exists q, p = pos + q /\ title_position ts q /\ p < length chars).
Proof.
  induction fuel as [|f IH]; intros s pos ES LS L; [lia|]. cbn [caps_loop].
  destruct (Nat.leb_spec (length chars) pos) as [G|G].
  { assert (s = []) by (destruct s; [reflexivity|simpl in LS; lia]). subst s. exists [], [], []. split; [reflexivity|].
    split; [auto|]. split; [constructor|]. split; (intros p; split; [intros []|]).
    - intros (q & _ & a & d & l & c & b & X & _). destruct a; discriminate.
    - intros (q & _ & (a & d & b & X & _) & _). destruct a; discriminate. }
  rewrite ES. destruct (matches_opt s (bc_begword u)) eqn:EB.
  - apply matches_opt_spec in EB. destruct EB as (d & r & E1 & E2). rewrite E1. cbn [opt_len].
    pose proof (NB d E1) as ND. assert (LD : 0 < length d) by (destruct d; [congruence|simpl; lia]).
    assert (ER : skipn (pos + length d) chars = r) by (apply skipn_app_add; rewrite <- E2; exact ES).
    destruct (caps_word_spec (S (length chars)) r (pos + length d) ER) as (marks & letters & close & rest & -> & F1 & F2 & F3 & F4 & F5).
    { rewrite E2, app_length in LS. unfold char in *. lia. }
    cbn [bind fst snd].
    assert (ER2 : skipn (pos + length d + length (letters ++ opt_str close)) chars = rest).
    { apply skipn_app_add. rewrite <- app_assoc, <- F1. exact ER. }
    assert (LL : length s = length d + length (letters ++ opt_str close) + length rest).
    { rewrite E2, F1, !app_length. unfold char in *. lia. }
    destruct (IH rest (pos + length d + length (letters ++ opt_str close)) ER2) as (ups & tis & ts & -> & T1 & T2 & T3 & T4);
      [unfold char in *; lia|lia|]. cbn [bind fst snd].
    set (W := CapsWord d letters close). exists (marks ++ ups), tis, (W :: ts). split; [reflexivity|].
    assert (LT : length (token_text W) = length d + length (letters ++ opt_str close)) by (cbn [W token_text]; rewrite app_length; reflexivity).
    split; [cbn [flat_map W token_text]; rewrite T1, E2, F1, <- !app_assoc; reflexivity|].
    split; [constructor; [|exact T2]; rewrite T1; cbn [W token_fits]; auto|].
    split.
    + intros p. rewrite in_app_iff, F5, T3. split.
      * intros [H|(q & -> & a & d' & l' & c' & b & X & Y)].
        -- exists (p - pos). split; [lia|]. exists [], d, letters, close, ts. split; [reflexivity|]. cbn [flat_map app].
           rewrite app_length. unfold char in *. lia.
        -- exists (length d + length (letters ++ opt_str close) + q). split; [lia|]. exists (W :: a), d', l', c', b. split; [rewrite X; reflexivity|].
           cbn [flat_map]. rewrite <- !app_assoc, !(app_length (token_text W)), LT. unfold char in *. lia.
      * intros (q & -> & [|t a] & d' & l' & c' & b & X & Y).
        -- injection X as <- <- <- <-. cbn [flat_map app] in Y. rewrite app_length in Y. left. unfold char in *. lia.
        -- injection X as <- X. right. cbn [flat_map] in Y. rewrite <- !app_assoc, !(app_length (token_text W)), LT in Y.
           exists (q - (length d + length (letters ++ opt_str close))). split; [unfold char in *; lia|]. exists a, d', l', c', b. split; [exact X|].
           unfold char in *. lia.
    + intros p. rewrite T4. split.
      * intros (q & -> & (a & d' & b & X & Y) & Z). exists (length d + length (letters ++ opt_str close) + q). split; [lia|]. split; [|lia].
        exists (W :: a), d', b. split; [rewrite X; reflexivity|]. cbn [flat_map]. rewrite <- app_assoc, (app_length (token_text W)), LT. unfold char in *. lia.
      * intros (q & -> & ([|t a] & d' & b & X & Y) & Z); [discriminate|]. injection X as <- X. cbn [flat_map] in Y.
        rewrite <- app_assoc, (app_length (token_text W)), LT in Y.
        exists (q - (length d + length (letters ++ opt_str close))). split; [unfold char in *; lia|]. split; [|exact Z].
        exists a, d', b. split; [exact X|]. unfold char in *. lia.
  - apply matches_opt_nspec in EB.
    (* a token that holds no capitals word *)
    assert (STEP : forall t rest, s = token_text t ++ rest -> 0 < length (token_text t) ->
      (match t with CapsWord _ _ _ => False | _ => True end) -> token_fits u t rest ->
      exists ups tis ts, caps_loop u chars f (pos + length (token_text t)) = Ok (ups, tis) /\ flat_map token_text (t :: ts) = s /\ caps_read u (t :: ts) /\
       (forall p, In p ups <-> exists q, p = pos + q /\ upper_position (t :: ts) q) /\
       (forall p, (match t with CapsLetter _ => p = pos + length (token_text t) /\ p < length chars | _ => False end) \/ In p tis <->
          exists q, p = pos + q /\ title_position (t :: ts) q /\ p < length chars)).
    { intros t rest E1 LT0 NW TF. assert (LL : length s = length (token_text t) + length rest) by (rewrite E1, app_length; reflexivity).
      assert (ER : skipn (pos + length (token_text t)) chars = rest) by (apply skipn_app_add; rewrite <- E1; exact ES).
      destruct (IH rest _ ER) as (ups & tis & ts & -> & T1 & T2 & T3 & T4); [unfold char in *; lia|lia|].
      exists ups, tis, ts. split; [reflexivity|]. split; [cbn [flat_map]; rewrite T1; symmetry; exact E1|].
      split; [constructor; [rewrite T1; exact TF|exact T2]|]. split.
      - intros p. rewrite T3. split.
        + intros (q & -> & a & d' & l' & c' & b & X & Y). exists (length (token_text t) + q). split; [lia|]. exists (t :: a), d', l', c', b.
          split; [rewrite X; reflexivity|]. cbn [flat_map]. rewrite <- !app_assoc, !(app_length (token_text t)). unfold char in *. lia.
        + intros (q & -> & [|t' a] & d' & l' & c' & b & X & Y); [injection X as -> _; destruct NW|]. injection X as <- X.
          cbn [flat_map] in Y. rewrite <- !app_assoc, !(app_length (token_text t)) in Y.
          exists (q - length (token_text t)). split; [unfold char in *; lia|]. exists a, d', l', c', b. split; [exact X|]. unfold char in *. lia.
      - intros p. rewrite T4. split.
        + intros [H|(q & -> & (a & d' & b & X & Y) & Z)].
          * destruct t as [| d' |]; [destruct H| |destruct H]. destruct H as [-> H]. exists (length d'). split; [reflexivity|]. split; [|exact H].
            exists [], d', ts. split; reflexivity.
          * exists (length (token_text t) + q). split; [lia|]. split; [|lia]. exists (t :: a), d', b. split; [rewrite X; reflexivity|].
            cbn [flat_map]. rewrite <- app_assoc, app_length. unfold char in *. lia.
        + intros (q & -> & ([|t' a] & d' & b & X & Y) & Z).
          * injection X as -> ->. left. cbn [flat_map app token_text] in *. subst q. auto.
          * injection X as <- X. right. cbn [flat_map] in Y. rewrite <- app_assoc, app_length in Y.
            exists (q - length (token_text t)). split; [unfold char in *; lia|]. split; [|exact Z]. exists a, d', b. split; [exact X|]. unfold char in *. lia. }
    destruct (matches_opt s (bc_letter u)) eqn:EL.
    + apply matches_opt_spec in EL. destruct EL as (d & r & E1 & E2). rewrite E1. cbn [opt_len].
      pose proof (NL d E1) as ND. assert (LD : 0 < length d) by (destruct d; [congruence|simpl; lia]).
      destruct (STEP (CapsLetter d) r E2 LD Logic.I) as (ups & tis & ts & EQ & T1 & T2 & T3 & T4); [cbn [token_fits]; rewrite <- E2; auto|].
      cbn [token_text] in EQ, T4. rewrite EQ. cbn [bind fst snd].
      exists ups, (if Nat.ltb (pos + length d) (length chars) then pos + length d :: tis else tis), (CapsLetter d :: ts).
      split; [reflexivity|]. split; [exact T1|]. split; [exact T2|]. split; [exact T3|]. intros p. rewrite <- T4.
      destruct (Nat.ltb_spec (pos + length d) (length chars)); cbn [In].
      * split; [intros [<-|H1]; auto|intros [[-> _]|H1]; auto].
      * split; [auto|]. intros [[-> H1]|H1]; [lia|exact H1].
    + apply matches_opt_nspec in EL. destruct s as [|c r]; [simpl in LS; lia|].
      destruct (STEP (Plain c) r eq_refl) as (ups & tis & ts & EQ & T1 & T2 & T3 & T4); [simpl; lia|exact Logic.I|split; assumption|].
      cbn [token_text length] in EQ. rewrite Nat.add_1_r in EQ. rewrite EQ.
      exists ups, tis, (Plain c :: ts). split; [reflexivity|]. split; [exact T1|]. split; [exact T2|]. split; [exact T3|].
      intros p. rewrite <- T4. tauto.
Qed.
Lemma caps_marks_spec : exists ups tis ts, caps_marks u chars = Ok (ups, tis) /\ flat_map token_text ts = chars /\ caps_read u ts /\
    (forall p, In p ups <-> upper_position ts p) /\
    (forall p, In p tis <-> title_position ts p /\ p < length chars).
Proof.
  destruct (caps_loop_spec (S (length chars)) chars 0) as (ups & tis & ts & E & T1 & T2 & T3 & T4); auto.
  exists ups, tis, ts. split; [exact E|]. split; [exact T1|]. split; [exact T2|]. split.
  - intros p. rewrite T3. split; [intros (q & -> & H); exact H|intros H; exists p; auto].
  - intros p. rewrite T4. split; [intros (q & -> & H); exact H|intros H; exists p; auto].
Qed.
End Caps.

(** ** Numbers, backward *)
Section Number.
Variable u : number_cells.
Variable chars : str.
Hypothesis NS : forall d, bn_sign u = Some d -> d <> [].
Hypothesis NE : forall d, bn_end u = Some d -> d <> [].
Lemma char_before_firstn pos l : pos <= length chars ->
  not_in l (char_before chars pos) = true <-> ~ before_in (firstn pos chars) (length (firstn pos chars)) l.
Proof.
  intros L. rewrite char_before_spec. assert (FL : length (firstn pos chars) = pos) by (apply firstn_length_le; exact L).
  unfold char in *. rewrite FL. unfold before_in. split; intros H (q & E & A); apply H; exists q; (split; [exact E|]).
  - rewrite at_in_firstn in A. apply A.
  - rewrite at_in_firstn. split; [lia|exact A].
Qed.
Lemma firstn_add_skipn pos (a r : str) : skipn pos chars = a ++ r -> firstn pos chars ++ a = firstn (pos + length a) chars.
Proof.
  intros E. rewrite <- (firstn_skipn pos chars) at 2. unfold char in *. rewrite E.
  destruct (Nat.le_gt_cases pos (length chars)) as [L|L].
  - rewrite firstn_app. assert (FL : length (firstn pos chars) = pos) by (apply firstn_length_le; exact L).
    rewrite (firstn_all2 (firstn pos chars)) by (rewrite firstn_length; lia). f_equal. rewrite FL. replace (pos + length a - pos) with (length a) by lia.
    rewrite firstn_app, Nat.sub_diag, firstn_all, app_nil_r. reflexivity.
  - rewrite skipn_all2 in E by lia. destruct a; [|discriminate]. simpl in E. subst r. simpl. rewrite !app_nil_r, Nat.add_0_r, firstn_firstn, Nat.min_id. reflexivity.
Qed.
Lemma number_loop_spec fuel : forall s pos inn, skipn pos chars = s -> pos + length s = length chars -> length s < fuel ->
  exists l ts, number_loop u chars fuel pos inn = Ok l /\ flat_map number_text ts = s /\
    number_read u (firstn pos chars) inn ts /\ (forall p, In p l <-> exists q, p = pos + q /\ digit_position ts q).
Proof.
  induction fuel as [|f IH]; intros s pos inn ES LS L; [lia|]. cbn [number_loop]. rewrite ES.
  destruct s as [|c r] eqn:Es.
  { exists [], []. split; [reflexivity|]. split; [reflexivity|]. split; [constructor|]. intros p. split; [intros []|].
    intros (q & _ & a & c & b & X & _). destruct a; discriminate. }
  rewrite <- Es in *.
  assert (STEP : forall t inn' rest, s = number_text t ++ rest -> 0 < length (number_text t) ->
    exists l ts, number_loop u chars f (pos + length (number_text t)) inn' = Ok l /\ flat_map number_text (t :: ts) = s /\
      rest = flat_map number_text ts /\
      number_read u (firstn pos chars ++ number_text t) inn' ts /\
      (forall p, (match t with NumDigit _ => p = pos | _ => False end) \/ In p l <-> exists q, p = pos + q /\ digit_position (t :: ts) q)).
  { intros t inn' rest E1 LT. assert (LL : length s = length (number_text t) + length rest) by (rewrite E1, app_length; reflexivity).
    rewrite (firstn_add_skipn pos (number_text t) rest) by (rewrite <- E1; exact ES).
    destruct (IH rest (pos + length (number_text t)) inn') as (l & ts & -> & T1 & T2 & T3);
      [apply skipn_app_add; rewrite <- E1; exact ES|unfold char in *; lia|lia|].
    exists l, ts. split; [reflexivity|]. split; [cbn [flat_map]; rewrite T1; symmetry; exact E1|]. split; [auto|]. split; [exact T2|].
    intros p. rewrite T3. split.
    - intros [H|(q & -> & a & c' & b & X & ->)].
      + destruct t; try destruct H. exists 0. split; [lia|]. exists [], c0, ts. auto.
      + exists (length (number_text t) + length (flat_map number_text a)). split; [unfold char in *; lia|]. exists (t :: a), c', b.
        split; [rewrite X; reflexivity|]. cbn [flat_map]. rewrite app_length. reflexivity.
    - intros (q & -> & [|t' a] & c' & b & X & ->).
      + injection X as -> ->. left. cbn [flat_map length]. lia.
      + injection X as <- X. right. cbn [flat_map]. rewrite app_length. exists (length (flat_map number_text a)).
        split; [unfold char in *; lia|]. exists a, c', b. auto. }
  assert (SH : (matches_opt s (bn_sign u) && not_in (bn_letters u) (char_before chars pos))%bool = true <-> sign_here u (firstn pos chars) s).
  { rewrite andb_true_iff, matches_opt_spec, char_before_firstn by (unfold char in *; lia). reflexivity. }
  destruct (matches_opt s (bn_sign u) && not_in (bn_letters u) (char_before chars pos))%bool.
  - destruct (proj1 SH eq_refl) as ((d & r' & E1 & E2) & HB). rewrite E1. cbn [opt_len].
    destruct (STEP (NumSign d) true r' E2) as (l & ts & EQ & T1 & T0 & T2 & T3).
    { pose proof (NS d E1). cbn [number_text]. destruct d; [congruence|simpl; lia]. }
    cbn [number_text] in EQ, T2. rewrite EQ. exists l, (NumSign d :: ts). split; [reflexivity|]. split; [exact T1|].
    split; [apply NR_sign; assumption|]. intros p. rewrite <- T3. tauto.
  - assert (NSH : ~ sign_here u (firstn pos chars) s) by (rewrite <- SH; discriminate).
    assert (OTHER : (inn = true -> ~ begins s (bn_end u) /\ ~ In c (bn_digits u)) -> exists l ts, number_loop u chars f (S pos) false = Ok l /\ flat_map number_text ts = s /\
      number_read u (firstn pos chars) inn ts /\ (forall p, In p l <-> exists q, p = pos + q /\ digit_position ts q)).
    { intros HI. destruct (STEP (NumOther c) false r) as (l & ts & EQ & T1 & T0 & T2 & T3); [rewrite Es; reflexivity|simpl; lia|].
      cbn [number_text length] in EQ. rewrite Nat.add_1_r in EQ. exists l, (NumOther c :: ts). split; [exact EQ|]. split; [exact T1|].
      split; [apply NR_other; [rewrite <- T0, <- Es; exact NSH|rewrite <- T0, <- Es; exact HI|exact T2]|]. intros p. rewrite <- T3. tauto. }
    destruct inn; [|apply OTHER; discriminate].
    destruct (matches_opt s (bn_end u)) eqn:EE.
    + apply matches_opt_spec in EE. destruct EE as (d & r' & E1 & E2). rewrite E1. cbn [opt_len].
      destruct (STEP (NumEnd d) false r' E2) as (l & ts & EQ & T1 & T0 & T2 & T3).
      { pose proof (NE d E1). cbn [number_text]. destruct d; [congruence|simpl; lia]. }
      cbn [number_text] in EQ, T2. rewrite EQ. exists l, (NumEnd d :: ts). split; [reflexivity|]. split; [exact T1|].
      split; [apply NR_end; [exact E1|rewrite <- T0, <- E2; exact NSH|exact T2]|]. intros p. rewrite <- T3. tauto.
    + apply matches_opt_nspec in EE. destruct (mem c (bn_digits u)) eqn:EM.
      * apply mem_In in EM. destruct (STEP (NumDigit c) true r) as (l & ts & EQ & T1 & T0 & T2 & T3); [rewrite Es; reflexivity|simpl; lia|].
        cbn [number_text length] in EQ. rewrite Nat.add_1_r in EQ. rewrite EQ. cbn [bind].
        exists (pos :: l), (NumDigit c :: ts). split; [reflexivity|]. split; [exact T1|].
        split; [apply NR_digit; [exact EM|rewrite <- T0; subst s; exact NSH|rewrite <- T0; subst s; exact EE|exact T2]|].
        intros p. rewrite <- T3. cbn [In]. split; (intros [H|H]; [left; congruence|right; exact H]).
      * apply mem_nIn in EM. apply OTHER. auto.
Qed.
Lemma number_marks_spec : exists l ts, number_marks u chars = Ok l /\ flat_map number_text ts = chars /\
    number_read u [] false ts /\ (forall p, In p l <-> digit_position ts p).
Proof.
  destruct (number_loop_spec (S (length chars)) chars 0 false) as (l & ts & E & T1 & T2 & T3); auto.
  exists l, ts. split; [exact E|]. split; [exact T1|]. split; [exact T2|].
  intros p. rewrite T3. split; [intros (q & -> & H); exact H|intros H; exists p; auto].
Qed.
End Number.

(** ** There is one reading *)
Lemma app_eq_cases {A} (a b c d : list A) : a ++ b = c ++ d ->
  (exists e, c = a ++ e /\ b = e ++ d) \/ (exists e, a = c ++ e /\ d = e ++ b).
Proof.
  revert c. induction a as [|x a IH]; intros c E.
  - left. exists c. auto.
  - destruct c as [|y c].
    + right. exists (x :: a). auto.
    + cbn [app] in E. injection E as -> E. destruct (IH c E) as [(e & -> & ->)|(e & -> & ->)].
      * left. exists e. auto.
      * right. exists e. auto.
Qed.
Lemma caps_read_unique u ts : (forall d, bc_letter u = Some d -> d <> []) -> (forall d, bc_begword u = Some d -> d <> []) ->
  caps_read u ts -> forall ts', caps_read u ts' -> flat_map token_text ts = flat_map token_text ts' -> ts = ts'.
Proof.
  intros NL NB. assert (NE : forall t r, token_fits u t r -> token_text t <> []).
  { intros [d l c|d|c] r; cbn [token_fits token_text].
    - intros [E _] X. apply app_eq_nil in X. apply (NB d E), X.
    - intros [_ E] X. apply (NL d E), X.
    - discriminate. }
  induction 1 as [|t ts F R IH]; intros ts' R' E.
  - destruct R' as [|t' ts' F' R']; [reflexivity|]. cbn [flat_map] in E. symmetry in E. apply app_eq_nil in E. destruct (NE _ _ F' (proj1 E)).
  - destruct R' as [|t' ts' F' R']; [cbn [flat_map] in E; apply app_eq_nil in E; destruct (NE _ _ F (proj1 E))|].
    assert (X : t = t'); [|subst t'; f_equal; apply IH; [exact R'|]; cbn [flat_map] in E; apply app_inv_head in E; exact E].
    clear IH. cbn [flat_map] in E. set (s := flat_map token_text ts) in *. set (s' := flat_map token_text ts') in *. clearbody s s'.
    assert (BG : forall d l c r, bc_begword u = Some d -> begins (token_text (CapsWord d l c) ++ r) (bc_begword u)).
    { intros d l c r H. exists d, ((l ++ opt_str c) ++ r). split; [exact H|]. cbn [token_text]. rewrite <- !app_assoc. reflexivity. }
    destruct t as [d l c|d|c], t' as [d' l' c'|d'|c']; cbn [token_fits] in F, F'.
    + destruct F as (F1 & F2 & F3 & F4), F' as (G1 & G2 & G3 & G4). rewrite F1 in G1. injection G1 as <-.
      cbn [token_text] in E. rewrite <- !app_assoc in E. apply app_inv_head in E.
      assert (KEY : forall l c s l' c' s' e, l' = l ++ e -> opt_str c ++ s = e ++ opt_str c' ++ s' ->
        (match c with Some e => bc_endword u = Some e | None => ~ begins s (bc_endword u) /\ ~ at_in s 0 (bc_cells u) end) ->
        (forall l1 l2, l' = l1 ++ l2 -> l2 <> [] -> ~ begins (l2 ++ opt_str c' ++ s') (bc_endword u)) ->
        (forall c, In c l' -> In c (bc_cells u)) -> e = []).
      { clear. intros l c s l' c' s' e E1 E2 H1 H2 H3. destruct e as [|x e]; [reflexivity|exfalso].
        destruct c as [z|].
        - apply (H2 l (x :: e) E1); [discriminate|]. rewrite <- E2. exists z, s. auto.
        - cbn [opt_str app] in E2. apply H1. rewrite E2. cbn [app]. apply at_in_0, H3. rewrite E1. apply in_or_app. right. left. reflexivity. }
      assert (EL : l = l').
      { destruct (app_eq_cases _ _ _ _ E) as [(e & E1 & E2)|(e & E1 & E2)].
        - rewrite (KEY _ _ _ _ _ _ _ E1 E2 F4 G2 G3), app_nil_r in E1. auto.
        - rewrite (KEY _ _ _ _ _ _ _ E1 E2 G4 F2 F3), app_nil_r in E1. auto. }
      subst l'. apply app_inv_head in E. f_equal.
      destruct c as [z|], c' as [z'|]; cbn [opt_str app] in E.
      * congruence.
      * exfalso. apply (proj1 G4). rewrite <- E. exists z, s. auto.
      * exfalso. apply (proj1 F4). rewrite E. exists z', s'. auto.
      * reflexivity.
    + exfalso. apply (proj1 F'). cbn [token_text] in E. rewrite <- E. apply (BG d l c s), F.
    + exfalso. apply (proj1 F'). cbn [token_text app] in E. unfold char in *. rewrite <- E. apply (BG d l c s), F.
    + exfalso. apply (proj1 F). cbn [token_text] in E. rewrite E. apply (BG d' l' c' s'), F'.
    + f_equal. destruct F as [_ F], F' as [_ F']. congruence.
    + exfalso. apply (proj2 F'). cbn [token_text app] in E. unfold char in *. rewrite <- E. exists d, s. split; [apply F|reflexivity].
    + exfalso. apply (proj1 F). cbn [token_text app] in E. unfold char in *. rewrite E. apply (BG d' l' c' s'), F'.
    + exfalso. apply (proj2 F). cbn [token_text app] in E. unfold char in *. rewrite E. exists d', s'. split; [apply F'|reflexivity].
    + cbn [token_text app] in E. congruence.
Qed.
Lemma number_read_unique u before inn ts : (forall d, bn_sign u = Some d -> d <> []) -> (forall d, bn_end u = Some d -> d <> []) ->
  number_read u before inn ts -> forall ts', number_read u before inn ts' -> flat_map number_text ts = flat_map number_text ts' -> ts = ts'.
Proof.
  intros NS NE. assert (NN : forall before inn t ts, number_read u before inn (t :: ts) -> number_text t <> []).
  { intros bf i t ts0 H. inversion H; subst; cbn [number_text]; [eapply NS|eapply NE|..]; try eassumption; discriminate. }
  induction 1 as [bf inn|bf inn d ts E1 E2 R IH|bf d ts E1 E2 R IH|bf c ts E1 E2 E3 R IH|bf inn c ts E1 E2 R IH];
    intros ts' R' E.
  - destruct ts' as [|t' ts']; [reflexivity|]. cbn [flat_map] in E. symmetry in E. apply app_eq_nil in E. destruct (NN _ _ _ _ R' (proj1 E)).
  - destruct ts' as [|t' ts'].
    { cbn [flat_map number_text] in E. apply app_eq_nil in E. destruct (NS _ E1 (proj1 E)). }
    cbn [flat_map number_text] in E.
    assert (SH : sign_here u bf (d ++ flat_map number_text ts)) by (split; [exists d, (flat_map number_text ts); auto|exact E2]).
    inversion R'; subst; cbn [number_text app] in E.
    + assert (d0 = d) by congruence. subst d0. f_equal. apply app_inv_head in E. apply IH; assumption.
    + exfalso. unfold char in *. rewrite E in SH. contradiction.
    + exfalso. unfold char in *. rewrite E in SH. contradiction.
    + exfalso. unfold char in *. rewrite E in SH. contradiction.
  - destruct ts' as [|t' ts'].
    { cbn [flat_map number_text] in E. apply app_eq_nil in E. destruct (NE _ E1 (proj1 E)). }
    cbn [flat_map number_text] in E. inversion R'; subst; cbn [number_text app] in E.
    + exfalso. apply E2. unfold char in *; rewrite E. split; [exists d0, (flat_map number_text ts'); auto|assumption].
    + assert (d0 = d) by congruence. subst d0. f_equal. apply app_inv_head in E. apply IH; assumption.
    + exfalso. match goal with H : ~ begins _ _ |- _ => apply H end. unfold char in *; rewrite <- E. exists d, (flat_map number_text ts). auto.
    + exfalso. match goal with H : true = true -> _ |- _ => destruct (H eq_refl) as [HX _] end. apply HX. unfold char in *; rewrite <- E. exists d, (flat_map number_text ts). auto.
  - destruct ts' as [|t' ts']; [discriminate|]. cbn [flat_map number_text app] in E. inversion R'; subst; cbn [number_text app] in E.
    + exfalso. apply E2. unfold char in *; rewrite E. split; [exists d, (flat_map number_text ts'); auto|assumption].
    + exfalso. apply E3. unfold char in *; rewrite E. exists d, (flat_map number_text ts'). auto.
    + injection E as -> E. f_equal. apply IH; assumption.
    + exfalso. injection E as -> E. match goal with H : true = true -> _ |- _ => destruct (H eq_refl) as [_ HX] end. contradiction.
  - destruct ts' as [|t' ts']; [discriminate|]. cbn [flat_map number_text app] in E. inversion R'; subst; cbn [number_text app] in E.
    + exfalso. apply E1. unfold char in *; rewrite E. split; [exists d, (flat_map number_text ts'); auto|assumption].
    + exfalso. apply (proj1 (E2 eq_refl)). unfold char in *; rewrite E. exists d, (flat_map number_text ts'). auto.
    + exfalso. injection E as -> E. apply (proj2 (E2 eq_refl)). assumption.
    + injection E as -> E. f_equal. apply IH; assumption.
Qed.

(** ** All restrictions together *)
Lemma flag_at_map (f : flags -> bool) g n p : flag_at f (map g (seq 0 n)) p = true <-> p < n /\ f (g p) = true.
Proof.
  unfold flag_at. destruct (Nat.lt_ge_cases p n) as [L|L].
  - rewrite nth_error_map. rewrite (nth_error_nth' _ 0) by (rewrite seq_length; exact L). cbn [option_map].
    rewrite seq_nth by exact L. cbn [plus]. tauto.
  - rewrite (proj2 (nth_error_None _ _)) by (rewrite map_length, seq_length; exact L). split; [discriminate|lia].
Qed.
Lemma mem_nat_In n l : mem_nat n l = true <-> In n l.
Proof.
  unfold mem_nat. rewrite existsb_exists. split; [intros (y & H & E); apply Nat.eqb_eq in E; subst; exact H|].
  intros H. exists n. split; [exact H|apply Nat.eqb_refl].
Qed.
Lemma upper_lt ts p : upper_position ts p -> p < length (flat_map token_text ts).
Proof.
  intros (a & d & l & c & b & -> & H). rewrite flat_map_app. cbn [flat_map token_text]. rewrite !app_length in *. unfold char in *. lia.
Qed.
Lemma digit_lt ts p : digit_position ts p -> p < length (flat_map number_text ts).
Proof.
  intros (a & c & b & -> & ->). rewrite flat_map_app. cbn [flat_map number_text]. rewrite !app_length. cbn [length]. unfold char in *. lia.
Qed.
Lemma limits_spec k chars spans : cells_ok k -> exists limits, limits_of k chars spans = Ok limits /\ restrictions k chars spans limits.
Proof.
  intros [C1 C2 C3 C4 C5]. unfold limits_of.
  assert (CAPS : exists ups tis, optional (kc_caps k) (fun u => caps_marks u chars) ([], []) = Ok (ups, tis) /\
    (forall p, In p ups <-> exists u ts, kc_caps k = Some u /\ caps_read u ts /\ flat_map token_text ts = chars /\ upper_position ts p) /\
    (forall p, In p tis <-> exists u ts, kc_caps k = Some u /\ caps_read u ts /\ flat_map token_text ts = chars /\
                 title_position ts p /\ p < length chars)).
  { destruct (kc_caps k) as [u|]; cbn [optional].
    - destruct (caps_marks_spec u chars) as (ups & tis & ts & E & T1 & T2 & T3 & T4); [eauto..|]. exists ups, tis. split; [exact E|]. split.
      + intros p. rewrite T3. split; [intros H; exists u, ts; auto|]. intros (u' & ts' & [= <-] & R & X & H).
        rewrite (caps_read_unique u ts) with (ts' := ts'); eauto. congruence.
      + intros p. rewrite T4. split; [intros H; exists u, ts; tauto|]. intros (u' & ts' & [= <-] & R & X & H).
        rewrite (caps_read_unique u ts) with (ts' := ts'); eauto. congruence.
    - exists [], []. split; [reflexivity|]. split; intros p; (split; [intros []|intros (u & ts & [=] & _)]). }
  assert (NUM : exists l, optional (kc_number k) (fun u => number_marks u chars) [] = Ok l /\
    (forall p, In p l <-> exists u ts, kc_number k = Some u /\ number_read u [] false ts /\ flat_map number_text ts = chars /\
                 digit_position ts p)).
  { destruct (kc_number k) as [u|]; cbn [optional].
    - destruct (number_marks_spec u chars) as (l & ts & E & T1 & T2 & T3); [eauto..|]. exists l. split; [exact E|].
      intros p. rewrite T3. split; [intros H; exists u, ts; auto|]. intros (u' & ts' & [= <-] & R & X & H).
      rewrite (number_read_unique u [] false ts) with (ts' := ts'); eauto. congruence.
    - exists []. split; [reflexivity|]. intros p; (split; [intros []|intros (u & ts & [=] & _)]). }
  assert (HYP : exists l, optional (kc_hyphen k) (fun u => hyphen_marks (fst u) (snd u) chars) [] = Ok l /\
    (forall p, In p l <-> exists h letters, kc_hyphen k = Some (h, letters) /\ break_behind h letters chars p)).
  { destruct (kc_hyphen k) as [[h letters]|]; cbn [optional fst snd].
    - destruct (hyphen_marks_spec h letters chars) as (l & E & H); [unfold wf_patterns; eauto|]. exists l. split; [exact E|].
      intros p. rewrite H. split; [intros X; exists h, letters; auto|]. intros (h' & letters' & [= <- <-] & X). exact X.
    - exists []. split; [reflexivity|]. intros p; (split; [intros []|intros (h & l & [=] & _)]). }
  destruct CAPS as (ups & tis & -> & CU & CT). destruct NUM as (nl & -> & CN). destruct HYP as (bl & -> & CB). cbn [bind fst snd].
  eexists. split; [reflexivity|]. constructor; intros p; rewrite flag_at_map;
    cbn [k_dont_contract k_comp6 k_uppercase k_titlecase k_digit k_break k_prepunc k_postpunc].
  - destruct (kc_numeric k) as [u|].
    + rewrite protected_spec. split; [intros [_ H]; exists u; auto|]. intros (u' & [= <-] & H). split; [eapply in_number_lt, H|exact H].
    + split; [intros [_ H]; destruct p; discriminate|intros (u & [=] & _)].
  - split; [intros [A B]; split; [eapply comp_mark_spec; eauto|exact A]|]. intros [A B]. split; [exact B|]. apply comp_mark_spec; auto.
  - rewrite mem_nat_In, CU. split; [intros [_ H]; exact H|]. intros H. split; [|exact H]. destruct H as (u & ts & _ & _ & <- & H). apply upper_lt, H.
  - rewrite mem_nat_In, CT. split; [intros [_ H]; exact H|]. intros H. split; [|exact H]. destruct H as (u & ts & _ & _ & _ & _ & H). exact H.
  - rewrite mem_nat_In, CN. split; [intros [_ H]; exact H|]. intros H. split; [|exact H]. destruct H as (u & ts & _ & _ & <- & H). apply digit_lt, H.
  - rewrite mem_nat_In, CB. split; [intros [_ H]; exact H|]. intros H. split; [|exact H].
    destruct H as (h & letters & E & s & e & bs & W & L & EB & N).
    apply nth_true_lt in N. destruct (break_points_spec h (firstn (e - s) (skipn s chars)) (C5 _ _ E)) as (bs' & EB' & LB & _).
    rewrite EB in EB'. injection EB' as <-. rewrite LB, firstn_length in N. destruct W as (W1 & W2 & _). unfold char in *. lia.
  - destruct (kc_punct k) as [u|]; [|split; [intros [_ [=]]|intros (u & [=] & _)]]. rewrite prepunc_spec.
    split; [intros (_ & A & B); exists u; auto|]. intros (u' & [= <-] & A & B). split; [|auto].
    destruct B as (j & B1 & B2 & _). apply at_in_lt in B2. unfold char in *. lia.
  - destruct (kc_punct k) as [u|]; [|split; [intros [_ [=]]|intros (u & [=] & _)]].
    split; [intros [A B]; apply postpunc_spec in B; [exists u; tauto|lia]|]. intros (u' & [= <-] & A & B & C). split; [exact C|].
    apply postpunc_spec; [lia|auto].
Qed.

(** ** compbrl *)
Section Scanner.
Variable k : scanner.
Variable chars : str.
Lemma trigger_spec p : p < length chars -> existsb (starts_with (skipn p chars)) (sc_triggers k) = true <-> trigger_at k chars p.
Proof.
  intros L. rewrite existsb_exists. unfold trigger_at. split.
  - intros (t & H & E). apply starts_with_spec in E. destruct E as (r & E). exists t, r. auto.
  - intros (t & r & H & E & _). exists t. split; [exact H|]. apply starts_with_spec. exists r. exact E.
Qed.
Lemma word_start_spec p : let s := word_start_from k chars p in
  s <= p /\ (forall q, s <= q < p -> ~ space_at k chars q) /\ (s = 0 \/ space_at k chars (s - 1)).
Proof.
  induction p as [|q IH]; cbn [word_start_from].
  - split; [lia|]. split; [intros; lia|auto].
  - destruct (is_space_at k chars q) eqn:E.
    + split; [lia|]. split; [intros; lia|]. right. rewrite Nat.sub_1_r. exact E.
    + destruct IH as (A & B & C). split; [lia|]. split; [|exact C]. intros q' Hq.
      destruct (Nat.eq_dec q' q) as [->|]; [unfold space_at; congruence|apply B; lia].
Qed.
Lemma word_end_spec s : forall p, skipn p chars = s -> p <= length chars -> let e := word_end_from k s p in
  p <= e <= length chars /\ (forall q, p <= q < e -> ~ space_at k chars q) /\ (e = length chars \/ space_at k chars e).
Proof.
  induction s as [|c r IH]; intros p ES L; cbn [word_end_from].
  - split; [lia|]. split; [intros; lia|]. left. apply (f_equal (@length _)) in ES. rewrite skipn_length in ES. cbn [length] in ES. unfold char in *. lia.
  - assert (EN : nth_error chars p = Some c).
    { rewrite <- (firstn_skipn p chars), nth_error_app2 by (rewrite firstn_length; lia).
      rewrite ES, firstn_length. replace (p - Nat.min p (length chars)) with 0 by lia. reflexivity. }
    assert (EL : p < length chars) by (apply nth_error_Some; congruence).
    assert (SP : is_space_at k chars p = cls_is_whitespace (sc_classes k) c) by (unfold is_space_at; rewrite EN; reflexivity).
    destruct (cls_is_whitespace (sc_classes k) c) eqn:E.
    + split; [lia|]. split; [intros; lia|]. right. exact SP.
    + destruct (IH (S p)) as (A & B & C); [pose proof (skipn_app_add chars [c] r p ES) as X; cbn [length] in X; rewrite Nat.add_1_r in X; exact X|lia|].
      split; [lia|]. split; [|exact C]. intros q Hq. destruct (Nat.eq_dec q p) as [->|]; [unfold space_at; congruence|apply B; lia].
Qed.
Lemma span_eqb_spec a b : span_eqb a b = true <-> a = b.
Proof.
  unfold span_eqb. rewrite !andb_true_iff, str_eqb_eq', !Nat.eqb_eq. destruct a, b; cbn. split; [intros [[-> ->] ->]; reflexivity|intros [= -> -> ->]; auto].
Qed.
(** a word with a trigger at [from] or later *)
Definition triggered (from : nat) (sp : span) : Prop :=
  sp_class sp = computer_braille /\ text_word k chars (sp_start sp) (sp_end sp) /\
  exists p, from <= p /\ sp_start sp <= p < sp_end sp /\ trigger_at k chars p.
Lemma scan_loop_spec fuel : forall pos spans, length chars < fuel + pos -> pos <= length chars -> 
  (forall p, pos <= p -> trigger_at k chars p -> ~ space_at k chars p) ->
  exists spans', scan_loop k chars fuel pos spans = Ok spans' /\ (exists added, spans' = spans ++ added /\ forall sp, In sp spans -> ~ In sp added) /\
    forall sp, In sp spans' <-> In sp spans \/ triggered pos sp.
Proof.
  induction fuel as [|f IH]; intros pos spans LF LP NS; [lia|]. cbn [scan_loop].
  destruct (Nat.leb_spec (length chars) pos) as [G|G].
  { exists spans. split; [reflexivity|]. split; [exists []; split; [symmetry; apply app_nil_r|auto]|]. intros sp. split; [auto|].
    intros [H|(_ & _ & p & A & _ & t & r & _ & _ & B)]; [exact H|lia]. }
  pose proof (trigger_spec pos G) as TS. destruct (existsb (starts_with (skipn pos chars)) (sc_triggers k)).
  - pose proof (proj1 TS eq_refl) as TR. pose proof (NS pos (le_n _) TR) as NSP.
    destruct (word_start_spec pos) as (A1 & A2 & A3). destruct (word_end_spec _ pos eq_refl LP) as (B1 & B2 & B3).
    set (s := word_start_from k chars pos) in *. set (e := word_end_from k (skipn pos chars) pos) in *.
    assert (PE : pos < e).
    { destruct (Nat.eq_dec pos e) as [X|X]; [|lia]. rewrite <- X in B3. destruct B3 as [B3|B3]; [lia|contradiction]. }
    assert (W : text_word k chars s e).
    { repeat split; [lia|lia| |exact A3|exact B3]. intros q Hq. destruct (Nat.lt_ge_cases q pos); [apply A2; lia|apply B2; lia]. }
    set (sp0 := mk_span computer_braille s e).
    destruct (IH e (if existsb (span_eqb sp0) spans then spans else spans ++ [sp0])) as (spans' & -> & (added & EA & NA) & H); [lia|lia|intros p Hp; apply NS; lia|].
    exists spans'. split; [reflexivity|]. split.
    { destruct (existsb (span_eqb sp0) spans) eqn:EX; [exists added; auto|]. exists (sp0 :: added). split; [rewrite EA, <- app_assoc; reflexivity|].
      intros sp Hs [<-|Ha]; [|apply (NA sp); [apply in_or_app; auto|exact Ha]].
      assert (X : existsb (span_eqb sp0) spans = true) by (apply existsb_exists; exists sp0; split; [exact Hs|apply span_eqb_spec; reflexivity]). congruence. }
    assert (IN : forall sp, In sp (if existsb (span_eqb sp0) spans then spans else spans ++ [sp0]) <-> In sp spans \/ sp = sp0).
    { intros sp. destruct (existsb (span_eqb sp0) spans) eqn:EX.
      - apply existsb_exists in EX. destruct EX as (y & Hy & Ey). apply span_eqb_spec in Ey. subst y. split; [auto|intros [X| ->]; auto].
      - rewrite in_app_iff. cbn [In]. split; (intros [X|X]; [auto|]); [destruct X as [X|[]]; auto|subst; auto]. }
    intros sp. rewrite H, IN. split.
    + intros [[X|X]|X]; [auto| |].
      * subst sp. right. split; [reflexivity|]. split; [exact W|]. exists pos. cbn [sp0 sp_start sp_end]. repeat split; [lia..|exact TR].
      * right. destruct X as (X1 & X2 & p & X3 & X4). split; [exact X1|]. split; [exact X2|]. exists p. split; [lia|exact X4].
    + intros [X|X]; [auto|]. destruct X as (X1 & X2 & p & X3 & X4 & X5).
      destruct (Nat.lt_ge_cases p e) as [L|L]; [|right; split; [exact X1|]; split; [exact X2|]; exists p; auto].
      left. right. assert (Y : sp_start sp = s /\ sp_end sp = e).
      { clear - W X2 X4 X3 L A1. destruct W as (W1 & W2 & W3 & W4 & W5), X2 as (V1 & V2 & V3 & V4 & V5). split.
        - destruct (Nat.lt_trichotomy (sp_start sp) s) as [Z|[Z|Z]]; [exfalso|exact Z|exfalso].
          + destruct W4 as [W4|W4]; [lia|]. apply (V3 (s - 1)); [lia|exact W4].
          + destruct V4 as [V4|V4]; [lia|]. apply (W3 (sp_start sp - 1)); [lia|exact V4].
        - destruct (Nat.lt_trichotomy (sp_end sp) e) as [Z|[Z|Z]]; [exfalso|exact Z|exfalso].
          + destruct V5 as [V5|V5]; [lia|]. apply (W3 (sp_end sp)); [lia|exact V5].
          + destruct W5 as [W5|W5]; [lia|]. apply (V3 e); [lia|exact W5]. }
      destruct sp as [c s' e']; cbn in X1, Y. destruct Y as [-> ->]. subst c. reflexivity.
  - destruct (IH (S pos) spans) as (spans' & -> & AD & H); [lia|lia|intros p Hp; apply NS; lia|].
    exists spans'. split; [reflexivity|]. split; [exact AD|]. intros sp. rewrite H. apply or_iff_compat_l. split.
    + intros (X1 & X2 & p & X3 & X4). split; [exact X1|]. split; [exact X2|]. exists p. split; [lia|exact X4].
    + intros (X1 & X2 & p & X3 & X4 & X5). split; [exact X1|]. split; [exact X2|]. exists p. split; [|auto].
      destruct (Nat.eq_dec p pos) as [->|]; [|lia]. assert (false = true) by (apply TS, X5). discriminate.
Qed.
Lemma enrich_spec spans : (forall p, trigger_at k chars p -> ~ space_at k chars p) ->
  exists added, enrich k chars spans = Ok (spans ++ added) /\
    forall sp, In sp (spans ++ added) <-> In sp spans \/ triggered 0 sp.
Proof.
  intros NS. destruct (scan_loop_spec (S (length chars)) 0 spans) as (spans' & E & (added & -> & _) & H); [lia|lia|auto|].
  exists added. split; [exact E|exact H].
Qed.
(** a trigger at a space: the loop never ends *)
Lemma scan_diverges fuel : forall pos spans, (exists p, pos <= p /\ trigger_at k chars p /\ space_at k chars p) ->
  scan_loop k chars fuel pos spans = OutOfFuel.
Proof.
  induction fuel as [|f IH]; intros pos spans (p & L & T & SP); [reflexivity|]. cbn [scan_loop].
  pose proof T as (t & r & _ & _ & LP). destruct (Nat.leb_spec (length chars) pos) as [G|G]; [lia|].
  pose proof (trigger_spec pos G) as TS. destruct (existsb (starts_with (skipn pos chars)) (sc_triggers k)).
  - destruct (word_end_spec _ pos eq_refl (Nat.lt_le_incl _ _ G)) as (B1 & B2 & B3).
    apply IH. exists p. split; [|auto]. destruct (Nat.lt_ge_cases p (word_end_from k (skipn pos chars) pos)) as [Y|Y]; [|exact Y].
    exfalso. apply (B2 p); [lia|exact SP].
  - apply IH. exists p. split; [|auto]. destruct (Nat.eq_dec p pos) as [->|]; [|lia]. assert (false = true) by (apply TS, T). discriminate.
Qed.
End Scanner.
