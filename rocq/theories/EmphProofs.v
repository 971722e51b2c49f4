(** The emphasis signs are those of EmphSpec.v. *)
From Coq Require Import Permutation Sorted.
From Verif Require Import Base BaseProofs RuleModel TranslationModel TableModel ConstraintModel IndicatorModel
  EmphSpec IndicatorProofs ConstraintProofs CapsProofs CapsFacts.

(** ** Runs *)
Lemma runs_from_spec act : forall todo pos,
  runs_in (fun q => act q = true) pos (pos + todo) (runs_from act todo pos None) /\
  (forall st, st < pos -> (forall q, st <= q < pos -> act q = true) ->
     exists e ws, runs_from act todo pos (Some st) = (st, e) :: ws /\ pos <= e <= pos + todo /\
       (forall q, pos <= q < e -> act q = true) /\ (e = pos + todo \/ act e <> true) /\
       runs_in (fun q => act q = true) e (pos + todo) ws).
Proof.
  induction todo as [|t IH]; intros pos.
  - cbn [runs_from]. rewrite Nat.add_0_r. split; [constructor; [lia|intros; lia]|]. intros st L H. exists pos, [].
    split; [reflexivity|]. split; [lia|]. split; [intros; lia|]. split; [auto|]. constructor; [lia|intros; lia].
  - destruct (IH (S pos)) as [IH1 IH2]. cbn [runs_from]. replace (pos + S t) with (S pos + t) by lia.
    destruct (act pos) eqn:E.
    + assert (ST : forall st, st <= pos -> (forall q, st <= q < pos -> act q = true) -> exists e ws,
         runs_from act t (S pos) (Some st) = (st, e) :: ws /\ S pos <= e <= S pos + t /\
         (forall q, st <= q < e -> act q = true) /\ (e = S pos + t \/ act e <> true) /\ runs_in (fun q => act q = true) e (S pos + t) ws).
      { intros st L H. assert (H' : forall q, st <= q < S pos -> act q = true).
        { intros q Hq. destruct (Nat.eq_dec q pos) as [->|]; [exact E|apply H; lia]. }
        destruct (IH2 st ltac:(lia) H') as (e & ws & E1 & E2 & E3 & E4). exists e, ws. split; [exact E1|]. split; [exact E2|]. split; [|exact E4].
        intros q Hq. destruct (Nat.lt_ge_cases q (S pos)); [apply H'|apply E3]; lia. }
      split.
      * destruct (ST pos ltac:(lia)) as (e & ws & -> & L & H1 & H2 & H3); [intros; lia|]. apply RI_run; auto; try lia; intros; lia.
      * intros st L H. destruct (ST st ltac:(lia) H) as (e & ws & -> & L' & H1 & H2 & H3). exists e, ws. split; [reflexivity|]. split; [lia|].
        split; [intros q Hq; apply H1; lia|]. auto.
    + assert (EXT : runs_in (fun q => act q = true) pos (S pos + t) (runs_from act t (S pos) None)).
      { assert (NP : forall q, q = pos -> act q <> true) by (intros q ->; congruence).
        inversion IH1 as [? ? X1 X2|? ? s e ws X1 X2 X3 X4 X5 X6 X7]; subst.
        - constructor; [lia|]. intros q Hq. destruct (Nat.eq_dec q pos); [auto|apply X2; lia].
        - apply RI_run; auto; [lia|]. intros q Hq. destruct (Nat.eq_dec q pos); [auto|apply X4; lia]. }
      split; [exact EXT|]. intros st L H. exists pos, (runs_from act t (S pos) None). split; [reflexivity|]. split; [lia|]. split; [intros; lia|].
      split; [right; congruence|exact EXT].
Qed.
Lemma spans_runs p act s : forall pos open, (forall i c, nth_error s i = Some c -> act (pos + i) = p c) ->
  spans_from p s pos open = runs_from act (length s) pos open.
Proof.
  induction s as [|c r IH]; intros pos open H; [reflexivity|]. cbn [spans_from length runs_from].
  assert (E : act pos = p c) by (rewrite <- (Nat.add_0_r pos); apply H; reflexivity).
  rewrite E. assert (T : forall open, spans_from p r (S pos) open = runs_from act (length r) (S pos) open); [|rewrite !T; reflexivity].
  intros open'. apply IH.
  all: intros i c' Hi; rewrite <- (H (S i) c' Hi); f_equal; lia.
Qed.
Lemma find_spans_runs p chars start stop : start <= stop -> stop <= length chars ->
  runs_in (fun q => at_pos chars p q = true) start stop (find_spans p chars start stop).
Proof.
  intros L1 L2. unfold find_spans. rewrite (spans_runs p (at_pos chars p)).
  - match goal with |- context [runs_from _ ?n _ _] => replace n with (stop - start) by (rewrite firstn_length, skipn_length; unfold char in *; lia) end.
    pose proof (proj1 (runs_from_spec (at_pos chars p) (stop - start) start)) as R.
    replace (start + (stop - start)) with stop in R by lia. exact R.
  - intros i c Hi. unfold at_pos. assert (E : nth_error chars (start + i) = Some c).
    { rewrite <- Hi. assert (Li : i < stop - start).
      { assert (i < length (firstn (stop - start) (skipn start chars))) by (apply nth_error_Some; intros X; pose proof (eq_trans (eq_sym Hi) X); discriminate). rewrite firstn_length in H. lia. }
      clear - Li. transitivity (nth_error (skipn start chars) i).
      - clear Li. revert chars. induction start as [|k IH]; intros [|c chars]; cbn [skipn Nat.add nth_error]; auto. destruct i; reflexivity.
      - generalize (skipn start chars). clear - Li. revert i Li. generalize (stop - start). induction n as [|n IH]; intros i L l; [lia|].
        destruct l as [|c l]; [destruct i; reflexivity|]. destruct i; [reflexivity|]. cbn. apply IH. lia. }
    rewrite E. reflexivity.
Qed.
Lemma runs_in_ext (P Q : nat -> Prop) a b l : (forall q, P q <-> Q q) -> runs_in P a b l -> runs_in Q a b l.
Proof.
  intros H. induction 1 as [a b L N|a b s e ws L1 L2 L3 N Y E R IH]; constructor; auto.
  - intros q Hq X. apply (N q Hq), H, X.
  - intros q Hq X. apply (N q Hq), H, X.
  - intros q Hq. apply H, Y, Hq.
  - destruct E as [E|E]; [left; exact E|right; rewrite <- H; exact E].
Qed.
(** the elements of [runs_in] are the maximal runs *)
Lemma runs_in_In P a b l : runs_in P a b l -> (forall q, P q \/ ~ P q) -> forall s e, In (s, e) l <->
  a <= s < e /\ e <= b /\ (forall q, s <= q < e -> P q) /\ (e = b \/ ~ P e) /\ (s = a \/ ~ P (s - 1)).
Proof.
  intros R D. assert (G : a = a) by reflexivity.
  assert (MAIN : forall s e, In (s, e) l -> a <= s < e /\ e <= b /\ (forall q, s <= q < e -> P q) /\ (e = b \/ ~ P e) /\ (s = a \/ ~ P (s - 1))).
  { clear G. induction R as [a b L N|a b s e ws L1 L2 L3 N Y E R IH]; intros s' e' H; [destruct H|]. destruct H as [H|H].
    - injection H as -> ->. split; [lia|]. split; [lia|]. split; [exact Y|]. split; [exact E|]. destruct (Nat.eq_dec s' a); [left; lia|]. right. apply N. lia.
    - destruct (IH s' e' H) as (A & B & C & X & F). split; [lia|]. split; [lia|]. split; [exact C|]. split; [exact X|].
      destruct F as [-> |F]; [|right; exact F]. exfalso. destruct E as [-> |E]; [lia|]. apply E, C. lia. }
  intros s e. split; [apply MAIN|]. clear MAIN G. revert s e. induction R as [a b L N|a b s e ws L1 L2 L3 N Y E R IH]; intros s' e' (A & B & C & F & G).
  - exfalso. apply (N s'); [lia|apply C; lia].
  - destruct (Nat.lt_ge_cases s' s) as [X|X]; [exfalso; apply (N s'); [lia|apply C; lia]|].
    destruct (Nat.lt_ge_cases s' e) as [Z|Z].
    + left. assert (S1 : s' = s).
      { destruct (Nat.eq_dec s' s); [assumption|]. destruct G as [G|G]; [lia|]. exfalso. apply G, Y. lia. }
      subst s'. f_equal. destruct (Nat.lt_trichotomy e e') as [W|[W|W]]; [|exact W|].
      * destruct E as [->|E]; [lia|]. exfalso. apply E, C. lia.
      * destruct F as [->|F]; [lia|]. exfalso. apply F, Y. lia.
    + right. apply IH. split; [lia|]. split; [exact B|]. split; [exact C|]. split; [exact F|].
      destruct (Nat.eq_dec s' e) as [|NE]; [left; assumption|]. destruct G as [G|G]; [lia|right; exact G].
Qed.

(** ** The runs of a class *)
Section Class.
Variable u : emph_class.
Variable index : nat.
Variable chars : str.
Variable spans : list span.
Notation emphasized := (emphasized u chars spans).
Notation separator := (separator u chars).
Lemma active_iff p : active_at u chars spans p = true <-> emphasized p.
Proof.
  unfold active_at, EmphSpec.emphasized, at_pos. rewrite andb_true_iff, negb_true_iff, existsb_exists. split.
  - intros [(s & Hs & H) N]. rewrite !andb_true_iff, Nat.leb_le, Nat.ltb_lt in H. destruct H as [[H1 H2] H3].
    assert (Lp : p < length chars) by lia. destruct (nth_error chars p) as [c|] eqn:E; [|apply nth_error_None in E; unfold char in *; lia].
    exists c. split; [reflexivity|]. split; [intros X; apply mem_In in X; congruence|]. exists s. split; [exact Hs|]. split; [apply str_eqb_eq; exact H1|lia].
  - intros (c & E & N & s & Hs & H1 & H2). assert (Lp : p < length chars) by (apply nth_error_Some; intros X; pose proof (eq_trans (eq_sym E) X); discriminate).
    split.
    + exists s. split; [exact Hs|]. rewrite !andb_true_iff, Nat.leb_le, Nat.ltb_lt. split; [split; [apply str_eqb_eq; exact H1|lia]|lia].
    + rewrite E. destruct (mem c (em_no u)) eqn:M; [|reflexivity]. apply mem_In in M. contradiction.
Qed.
Lemma emphasized_dec p : emphasized p \/ ~ emphasized p.
Proof. rewrite <- active_iff. destruct (active_at u chars spans p); [left|right]; congruence. Qed.
Lemma emphasized_lt p : emphasized p -> p < length chars.
Proof. intros (c & E & _). apply nth_error_Some. intros X; pose proof (eq_trans (eq_sym E) X); discriminate. Qed.
Lemma sep_iff p : sep_at u chars p = true <-> separator p.
Proof.
  unfold sep_at, at_pos, EmphSpec.separator, emph_sep. split.
  - destruct (nth_error chars p) as [c|]; [|discriminate]. intros H. exists c. split; [reflexivity|]. destruct (is_empty (em_mode u)); [exact H|apply mem_In, H].
  - intros (c & E & H). rewrite E. destruct (is_empty (em_mode u)); [exact H|apply mem_In, H].
Qed.
Lemma sep_niff p : sep_at u chars p = false <-> ~ separator p.
Proof. rewrite <- sep_iff. destruct (sep_at u chars p); split; congruence. Qed.
Lemma active_runs_In a b : In (a, b) (active_runs u chars spans) <-> emph_run u chars spans a b.
Proof.
  unfold active_runs. pose proof (proj1 (runs_from_spec (active_at u chars spans) (length chars) 0)) as R. cbn [Nat.add] in R.
  pose proof (runs_in_ext _ _ _ _ _ active_iff R) as R'. rewrite (runs_in_In _ _ _ _ R' emphasized_dec). unfold emph_run.
  assert (NE : ~ emphasized (length chars)) by (intros H; apply emphasized_lt in H; lia).
  split.
  - intros (A & B & C & D & E). repeat split; auto; try lia. destruct D as [-> |D]; assumption.
  - intros (A & B & C & D & E). repeat split; auto; lia.
Qed.
Lemma first_text_spec a b : a <= b ->
  run_starts u chars a b (match first_text u chars a b with Some i => i | None => a end).
Proof.
  intros L. unfold first_text. pose proof (filter_sorted (fun i => negb (sep_at u chars i)) _ (seq_sorted (b - a) a)) as SS. fold (upto a b) in SS.
  assert (I : forall q, In q (filter (fun i => negb (sep_at u chars i)) (upto a b)) <-> a <= q < b /\ ~ separator q).
  { intros q. rewrite filter_In, upto_In, negb_true_iff, sep_niff. reflexivity. }
  destruct (filter (fun i => negb (sep_at u chars i)) (upto a b)) as [|i l]; cbn [hd_error].
  - right. split; [reflexivity|]. intros q Hq. apply sep_iff. destruct (sep_at u chars q) eqn:E; [reflexivity|]. apply sep_niff in E. destruct (proj2 (I q)); auto.
  - left. destruct (proj1 (I i) (or_introl eq_refl)) as [A B]. split; [exact A|]. split; [exact B|]. intros q Hq. apply sep_iff.
    destruct (sep_at u chars q) eqn:E; [reflexivity|]. apply sep_niff in E. assert (Iq : In q (i :: l)) by (apply I; split; [lia|exact E]).
    pose proof (sorted_hd _ _ SS Iq). cbn [hd] in *. lia.
Qed.
Lemma last_text_spec a b : a <= b ->
  match last_text u chars a b with
  | Some i => a <= i < b /\ ~ separator i /\ forall q, S i <= q < b -> separator q
  | None => forall q, a <= q < b -> separator q
  end.
Proof.
  intros L. unfold last_text.
  assert (I : forall q, In q (filter (fun i => negb (sep_at u chars i)) (rev (upto a b))) <-> a <= q < b /\ ~ separator q).
  { intros q. rewrite filter_In, <- in_rev, upto_In, negb_true_iff, sep_niff. reflexivity. }
  assert (SS : StronglySorted gt (filter (fun i => negb (sep_at u chars i)) (rev (upto a b)))).
  { clear I. assert (R : StronglySorted gt (rev (upto a b))).
    { unfold upto. generalize (b - a). intros n. clear. revert a. induction n as [|n IH]; intros a; [constructor|].
      rewrite seq_S, rev_app_distr. cbn [rev app]. constructor; [apply IH|]. apply Forall_forall. intros y Hy. apply in_rev, in_seq in Hy. lia. }
    induction R as [|x l H IH F]; cbn [filter]; [constructor|]. destruct (negb (sep_at u chars x)); [|exact IH]. constructor; [exact IH|].
    apply Forall_forall. intros y Hy. apply filter_In in Hy. rewrite Forall_forall in F. apply F, Hy. }
  destruct (filter (fun i => negb (sep_at u chars i)) (rev (upto a b))) as [|i l]; cbn [hd_error].
  - intros q Hq. apply sep_iff. destruct (sep_at u chars q) eqn:E; [reflexivity|]. apply sep_niff in E. destruct (proj2 (I q)); auto.
  - destruct (proj1 (I i) (or_introl eq_refl)) as [A B]. split; [exact A|]. split; [exact B|]. intros q Hq. apply sep_iff.
    destruct (sep_at u chars q) eqn:E; [reflexivity|]. apply sep_niff in E. assert (Iq : In q (i :: l)) by (apply I; split; [lia|exact E]).
    inversion SS as [|? ? _ F]; subst. destruct Iq as [<-|Iq]; [lia|]. rewrite Forall_forall in F. specialize (F q Iq). lia.
Qed.
Lemma last_text_stops a b : a <= b -> run_stops u chars a b (match last_text u chars a b with Some i => S i | None => b end).
Proof.
  intros L. pose proof (last_text_spec a b L) as H. destruct (last_text u chars a b) as [i|].
  - left. destruct H as (A & B & C). split; [lia|]. replace (S i - 1) with i by lia. auto.
  - right. auto.
Qed.
Lemma run_starts_unique a b f f' : run_starts u chars a b f -> run_starts u chars a b f' -> f = f'.
Proof.
  intros [(A & B & C)|(A & B)] [(A' & B' & C')|(A' & B')].
  - destruct (Nat.lt_trichotomy f f') as [X|[X|X]]; [exfalso; apply B, C'; lia|exact X|exfalso; apply B', C; lia].
  - exfalso. apply B, B'. lia.
  - exfalso. apply B', B. lia.
  - congruence.
Qed.
Lemma run_stops_unique a b f f' : run_stops u chars a b f -> run_stops u chars a b f' -> f = f'.
Proof.
  intros [(A & B & C)|(A & B)] [(A' & B' & C')|(A' & B')].
  - destruct (Nat.lt_trichotomy f f') as [X|[X|X]]; [exfalso; apply B', C; lia|exact X|exfalso; apply B, C'; lia].
  - exfalso. apply B, B'. lia.
  - exfalso. apply B', B. lia.
  - congruence.
Qed.
(** a class with begemph: one opening and one closing sign per run *)
Lemma mode_events beg : em_beg u = Some beg -> forall e, In e (emph_emit u index chars spans) <->
  exists a b f, emph_run u chars spans a b /\ run_starts u chars a b f /\
    (e = mk_event f (KOpen b) index beg \/
     exists t z, em_end u = Some t /\ run_stops u chars a b z /\ e = mk_event z (KClose f) index t).
Proof.
  intros EB e. unfold emph_emit. rewrite in_flat_map. split.
  - intros ((a & b) & I & H). apply active_runs_In in I. cbn [fst snd] in H. unfold emph_emit_run in H. rewrite EB in H.
    assert (L : a <= b) by (destruct I; lia). exists a, b, (match first_text u chars a b with Some i => i | None => a end).
    split; [exact I|]. split; [apply first_text_spec, L|]. destruct H as [<-|H]; [left; reflexivity|]. right.
    destruct (em_end u) as [t|]; [|destruct H]. destruct H as [<-|[]]. eexists t, _. split; [reflexivity|]. split; [apply last_text_stops, L|reflexivity].
  - intros (a & b & f & R & F & H). exists (a, b). split; [apply active_runs_In, R|]. cbn [fst snd]. unfold emph_emit_run. rewrite EB.
    assert (L : a <= b) by (destruct R; lia). pose proof (run_starts_unique _ _ _ _ F (first_text_spec a b L)) as <-.
    destruct H as [->|(t & z & -> & Z & ->)]; [left; reflexivity|]. right. left. unfold ev. rewrite (run_stops_unique _ _ _ _ Z (last_text_stops a b L)). reflexivity.
Qed.
(** every sign stands in the text *)
Definition class_signs : list (option resolved) :=
  [em_letter u; em_beg u; em_end u; em_begword u; em_endword u; em_begphrase u; em_endphrase u].
Lemma words_inside a b : a <= b -> b <= length chars -> Forall (fun w => a <= fst w < snd w /\ snd w <= b) (emph_words u chars a b).
Proof.
  intros L1 L2. unfold emph_words. pose proof (find_spans_runs (fun c => negb (emph_sep u c)) chars a b L1 L2) as R.
  induction R as [a b L N|a b s e ws X1 X2 X3 N Y E R IH]; [constructor|]. constructor; [cbn; lia|].
  assert (e <= b) by lia. eapply Forall_impl; [|apply IH; lia]. cbn. intros; lia.
Qed.
Lemma events_inside e : In e (emph_emit u index chars spans) -> ev_pos e <= length chars /\ In (Some (ev_sign e)) class_signs /\ ev_class e = index.
Proof.
  unfold emph_emit. rewrite in_flat_map. intros ((a & b) & I & H). apply active_runs_In in I. destruct I as (L & B & _). cbn [fst snd] in H.
  assert (OPT : forall p t x, In x (opt_ev index p t) -> ev_pos x = p /\ t = Some (ev_sign x) /\ ev_class x = index).
  { intros p [t|] x; cbn; [intros [<-|[]]; auto|intros []]. }
  assert (SW : forall w x, In x (emit_single_word u index w) -> ev_pos x = fst w /\ In (Some (ev_sign x)) class_signs /\ ev_class x = index).
  { intros w x. unfold emit_single_word. destruct (if Nat.eqb (snd w - fst w) 1 then em_letter u else None) as [t|] eqn:E.
    - intros [<-|[]]. cbn. split; [reflexivity|]. split; [|reflexivity]. destruct (Nat.eqb (snd w - fst w) 1); [rewrite E; left; reflexivity|discriminate].
    - intros X. apply OPT in X. destruct X as (X1 & X2 & X3). split; [exact X1|]. split; [unfold class_signs; rewrite X2; cbn; tauto|exact X3]. }
  unfold emph_emit_run in H. pose proof (first_text_spec a b ltac:(lia)) as FT. set (f := match first_text u chars a b with Some i => i | None => a end) in *.
  assert (Lf : f <= b) by (destruct FT as [(X & _)|(X & _)]; lia).
  destruct (em_beg u) as [bg|] eqn:EB.
  - destruct H as [<-|H]; [cbn; split; [lia|]; split; [unfold class_signs; rewrite EB; cbn; tauto|reflexivity]|].
    destruct (em_end u) as [t|] eqn:EE; [|destruct H]. destruct H as [<-|[]]. pose proof (last_text_stops a b ltac:(lia)) as LS. cbn.
    split; [destruct LS as [(X & _)|(X & _)]; lia|]. split; [unfold class_signs; rewrite EE; cbn; tauto|reflexivity].
  - pose proof (words_inside a b ltac:(lia) B) as WI. destruct (emph_words u chars a b) as [|w ws]; [destruct H|].
    rewrite Forall_forall in WI. assert (LW : In (last ws w) (w :: ws)).
    { clear. revert w. induction ws as [|z ws IH]; intros w; [left; reflexivity|]. rewrite last_cons. right. apply IH. }
    match type of H with In _ (if ?c then _ else _) => destruct c end.
    + unfold emit_clean_words in H. destruct (if N.leb (em_len u) (N.of_nat (S (length ws))) then em_begphrase u else None) as [bp|] eqn:EP.
      * destruct H as [<-|H].
        { cbn. pose proof (WI w (or_introl eq_refl)). split; [lia|]. split; [|reflexivity]. destruct (N.leb (em_len u) (N.of_nat (S (length ws)))); [|discriminate]. unfold class_signs; rewrite EP; cbn; tauto. }
        pose proof (WI _ LW). destruct (em_before u).
        -- apply SW in H. destruct H as (X1 & X2 & X3). split; [lia|auto].
        -- apply OPT in H. destruct H as (X1 & X2 & X3). split; [lia|]. split; [unfold class_signs; rewrite X2; cbn; tauto|exact X3].
      * apply in_flat_map in H. destruct H as (w' & Iw & H). apply SW in H. pose proof (WI _ Iw). destruct H as (X1 & X2 & X3). split; [lia|auto].
    + unfold emit_partial in H. match type of H with In _ (match ?c with _ => _ end) => destruct c as [t|] eqn:ET end.
      * destruct H as [<-|[]]. cbn. pose proof (WI w (or_introl eq_refl)). split; [lia|]. split; [|reflexivity].
        match type of ET with (if ?c then _ else _) = _ => destruct c end; [|discriminate]. unfold class_signs; rewrite ET; cbn; tauto.
      * destruct (em_begword u) as [bw|] eqn:EW; [|destruct (em_begphrase u) as [bp|] eqn:EP; [|destruct H]].
        -- destruct H as [<-|H]; [cbn; split; [lia|]; split; [unfold class_signs; rewrite EW; cbn; tauto|reflexivity]|].
           match type of H with In _ (if ?c then _ else _) => destruct c end; [|destruct H]. apply OPT in H. destruct H as (X1 & X2 & X3).
           split; [lia|]. split; [unfold class_signs; rewrite X2; cbn; tauto|exact X3].
        -- destruct H as [<-|H]; [cbn; split; [lia|]; split; [unfold class_signs; rewrite EP; cbn; tauto|reflexivity]|].
           match type of H with In _ (if ?c then _ else _) => destruct c end; [|destruct H]. apply OPT in H. destruct H as (X1 & X2 & X3).
           split; [lia|]. split; [unfold class_signs; rewrite X2; cbn; tauto|exact X3].
Qed.
End Class.
Lemma emph_events_In us chars spans : forall k e, In e (emph_events us k chars spans) <->
  exists i u, nth_error us i = Some u /\ In e (emph_emit u (k + i) chars spans).
Proof.
  induction us as [|u us IH]; intros k e; cbn [emph_events].
  - split; [intros []|intros (i & u & X & _); destruct i; discriminate].
  - rewrite in_app_iff, IH. split.
    + intros [H|(i & v & E & H)]; [exists 0, u; rewrite Nat.add_0_r; auto|]. exists (S i), v. split; [exact E|]. replace (k + S i) with (S k + i) by lia. exact H.
    + intros ([|i] & v & E & H).
      * injection E as <-. rewrite Nat.add_0_r in H. left; exact H.
      * right. exists i, v. split; [exact E|]. replace (S k + i) with (k + S i) by lia. exact H.
Qed.

(** ** The order *)
Definition pos_ge (a b : event) : Prop := ev_pos b <= ev_pos a.
Lemma less_pos a b : event_less a b = true -> ev_pos a <= ev_pos b.
Proof. unfold event_less, event_cmp. destruct (Nat.compare_spec (ev_pos a) (ev_pos b)); intros; try lia; discriminate. Qed.
Lemma nless_pos a b : event_less a b = false -> ev_pos b <= ev_pos a.
Proof. unfold event_less, event_cmp. destruct (Nat.compare_spec (ev_pos a) (ev_pos b)); intros; try lia; discriminate. Qed.
Lemma lt_less a b : ev_pos a < ev_pos b -> event_less a b = true.
Proof. intros H. unfold event_less, event_cmp. rewrite (proj2 (Nat.compare_lt_iff _ _) H). reflexivity. Qed.
Lemma shift_perm x l : Permutation (x :: l) (shift_left x l).
Proof.
  induction l as [|y l IH]; cbn [shift_left]; [reflexivity|]. destruct (event_less x y); [|reflexivity]. rewrite perm_swap. constructor. exact IH.
Qed.
Lemma shift_sorted x l : StronglySorted pos_ge l -> StronglySorted pos_ge (shift_left x l).
Proof.
  induction 1 as [|y l H IH F]; cbn [shift_left]; [repeat constructor|]. destruct (event_less x y) eqn:E.
  - constructor; [exact IH|]. apply Forall_forall. intros z Hz. apply (Permutation_in _ (Permutation_sym (shift_perm x l))) in Hz.
    destruct Hz as [<-|Hz]; [apply less_pos, E|]. rewrite Forall_forall in F. apply F, Hz.
  - constructor; [constructor; assumption|]. apply nless_pos in E. constructor; [exact E|]. rewrite Forall_forall in *. intros z Hz. specialize (F z Hz). unfold pos_ge in *. lia.
Qed.
Definition at_place (p : nat) (e : event) : bool := Nat.eqb (ev_pos e) p.
Lemma shift_filter p x l : StronglySorted pos_ge l ->
  filter (at_place p) (shift_left x l) = if at_place p x then shift_left x (filter (at_place p) l) else filter (at_place p) l.
Proof.
  induction 1 as [|y l H IH F]; cbn [shift_left filter]; [destruct (at_place p x); reflexivity|].
  destruct (event_less x y) eqn:E; cbn [filter].
  - rewrite IH. destruct (at_place p x), (at_place p y); cbn [shift_left]; rewrite ?E; reflexivity.
  - destruct (at_place p x) eqn:Ex; [|reflexivity]. destruct (at_place p y) eqn:Ey; [cbn [shift_left]; rewrite E; reflexivity|].
    apply nless_pos in E. assert (N : filter (at_place p) l = []).
    { destruct (filter (at_place p) l) as [|z l'] eqn:EF; [reflexivity|]. assert (Hz : In z (filter (at_place p) l)) by (rewrite EF; left; reflexivity).
      apply filter_In in Hz. destruct Hz as [Hz1 Hz2]. rewrite Forall_forall in F. specialize (F z Hz1). unfold pos_ge, at_place in *.
      apply Nat.eqb_eq in Ex, Hz2. apply Nat.eqb_neq in Ey. lia. }
    rewrite N. reflexivity.
Qed.
Notation fold_shift := (fold_left (fun acc x => shift_left x acc)).
Lemma fold_shift_facts p l : forall acc, StronglySorted pos_ge acc ->
  Permutation (acc ++ l) (fold_shift l acc) /\ StronglySorted pos_ge (fold_shift l acc) /\
  filter (at_place p) (fold_shift l acc) = fold_shift (filter (at_place p) l) (filter (at_place p) acc).
Proof.
  induction l as [|x l IH]; intros acc H; cbn [fold_left filter]; [rewrite app_nil_r; auto|].
  destruct (IH (shift_left x acc) (shift_sorted x acc H)) as (A & B & C). split; [|split; [exact B|]].
  - rewrite <- A, <- shift_perm. cbn [app]. symmetry. apply Permutation_middle.
  - rewrite C, shift_filter by exact H. destruct (at_place p x); reflexivity.
Qed.
Lemma SSorted_app {A} (R : A -> A -> Prop) l l' : StronglySorted R l -> StronglySorted R l' -> (forall a b, In a l -> In b l' -> R a b) -> StronglySorted R (l ++ l').
Proof.
  intros H H' G. induction H as [|x l H IH F]; [exact H'|]. cbn [app]. constructor.
  - apply IH. intros; apply G; [right|]; assumption.
  - apply Forall_app. split; [exact F|]. apply Forall_forall. intros b Hb. apply G; [left; reflexivity|exact Hb].
Qed.
Lemma SSorted_rev {A} (R : A -> A -> Prop) l : StronglySorted R l -> StronglySorted (fun a b => R b a) (rev l).
Proof.
  induction 1 as [|x l H IH F]; cbn [rev]; [constructor|]. apply SSorted_app; [exact IH|repeat constructor|].
  intros a b Ha [<-|[]]. rewrite Forall_forall in F. apply F, in_rev, Ha.
Qed.
Lemma filter_rev {A} (f : A -> bool) l : filter f (rev l) = rev (filter f l).
Proof. induction l as [|x l IH]; [reflexivity|]. cbn [rev filter]. rewrite filter_app, IH. cbn [filter]. destruct (f x); cbn [rev]; [reflexivity|apply app_nil_r]. Qed.
Lemma insertion_sort_facts l : Permutation l (insertion_sort l) /\
  StronglySorted (fun a b => ev_pos a <= ev_pos b) (insertion_sort l) /\
  forall p, filter (at_place p) (insertion_sort l) = insertion_sort (filter (at_place p) l).
Proof.
  unfold insertion_sort. split; [|split].
  - rewrite <- Permutation_rev. apply (fold_shift_facts 0 l []). constructor.
  - apply (SSorted_rev pos_ge). apply (fold_shift_facts 0 l []). constructor.
  - intros p. rewrite filter_rev. f_equal. apply (fold_shift_facts p l []). constructor.
Qed.
(** on elements where the comparison is an order, the result is sorted *)
Lemma less_asym a b : event_less a b = true -> event_less b a = false.
Proof.
  unfold event_less, event_cmp. rewrite (Nat.compare_antisym (ev_pos a) (ev_pos b)).
  destruct (Nat.compare (ev_pos a) (ev_pos b)); cbn [CompOpp]; try discriminate; try reflexivity.
  destruct (ev_kind a) as [ra|sa|], (ev_kind b) as [rb|sb|]; try discriminate; try reflexivity.
  - rewrite (Nat.compare_antisym rb ra). destruct (Nat.compare rb ra); cbn [CompOpp]; try discriminate; try reflexivity.
    rewrite (Nat.compare_antisym (ev_class b) (ev_class a)). destruct (Nat.compare (ev_class b) (ev_class a)); cbn [CompOpp]; try discriminate; reflexivity.
  - rewrite (Nat.compare_antisym sb sa). destruct (Nat.compare sb sa); cbn [CompOpp]; try discriminate; try reflexivity.
    rewrite (Nat.compare_antisym (ev_class a) (ev_class b)). destruct (Nat.compare (ev_class a) (ev_class b)); cbn [CompOpp]; try discriminate; reflexivity.
Qed.
Lemma shift_ordered (P : event -> Prop) x l : (forall a b c, P a -> P b -> P c -> event_less b a = false -> event_less c b = false -> event_less c a = false) ->
  P x -> Forall P l -> StronglySorted (fun a b => event_less a b = false) l -> StronglySorted (fun a b => event_less a b = false) (shift_left x l).
Proof.
  intros T Px Pl H. induction H as [|y l H IH F]; cbn [shift_left]; [repeat constructor|]. inversion Pl as [|? ? Py Pl']; subst.
  destruct (event_less x y) eqn:E.
  - constructor; [apply IH, Pl'|]. apply Forall_forall. intros z Hz. apply (Permutation_in _ (Permutation_sym (shift_perm x l))) in Hz.
    destruct Hz as [<-|Hz]; [apply less_asym, E|]. rewrite Forall_forall in F. apply F, Hz.
  - constructor; [constructor; assumption|]. constructor; [exact E|]. rewrite Forall_forall in *. intros z Hz. apply (T z y x); auto.
Qed.
Lemma insertion_ordered l : consistent l -> StronglySorted (fun a b => event_less b a = false) (insertion_sort l).
Proof.
  intros C. unfold insertion_sort. apply (SSorted_rev (fun a b => event_less a b = false)).
  assert (G : forall l' acc, Forall (fun x => In x l) l' -> Forall (fun x => In x l) acc -> StronglySorted (fun a b => event_less a b = false) acc ->
     StronglySorted (fun a b => event_less a b = false) (fold_shift l' acc)).
  { induction l' as [|x l' IH]; intros acc A B H; cbn [fold_left]; [exact H|]. inversion A; subst. apply IH; auto.
    - apply Forall_forall. intros z Hz. apply (Permutation_in _ (Permutation_sym (shift_perm x acc))) in Hz. destruct Hz as [<-|Hz]; [assumption|]. rewrite Forall_forall in B. apply B, Hz.
    - apply shift_ordered with (P := fun x => In x l); auto. }
  apply G; [apply Forall_forall; auto|constructor|constructor].
Qed.
(** signs of one kind at one place are ordered consistently *)
Lemma nless_order a b : ev_pos a = ev_pos b -> event_less b a = false -> in_order a b.
Proof.
  unfold event_less, event_cmp, in_order. intros E. rewrite E, Nat.compare_refl.
  destruct (ev_kind a) as [ra|sa|], (ev_kind b) as [rb|sb|]; auto.
  - destruct (Nat.compare_spec ra rb) as [X|X|X]; try discriminate; [|auto]. destruct (Nat.compare_spec (ev_class a) (ev_class b)); try discriminate; intros _; right; lia.
  - destruct (Nat.compare_spec sa sb) as [X|X|X]; try discriminate; [|auto]. destruct (Nat.compare_spec (ev_class b) (ev_class a)); try discriminate; intros _; right; lia.
Qed.
Definition same_kind (a b : event) : Prop := opens a /\ opens b \/ closes a /\ closes b \/ plain a /\ plain b.
Lemma nless_trans a b c : (ev_pos a = ev_pos b -> same_kind a b) -> (ev_pos b = ev_pos c -> same_kind b c) ->
  event_less b a = false -> event_less c b = false -> event_less c a = false.
Proof.
  intros S1 S2 H1 H2. pose proof (nless_pos _ _ H1). pose proof (nless_pos _ _ H2).
  unfold event_less, event_cmp in *.
  destruct (Nat.compare_spec (ev_pos c) (ev_pos a)) as [X|X|X]; [|lia|reflexivity].
  assert (E1 : ev_pos a = ev_pos b) by lia. assert (E2 : ev_pos b = ev_pos c) by lia. specialize (S1 E1). specialize (S2 E2).
  rewrite <- E1, Nat.compare_refl in H1. rewrite E2, Nat.compare_refl in H2.
  unfold same_kind, opens, closes, plain in *.
  destruct (ev_kind a) as [ra|sa|], (ev_kind b) as [rb|sb|]; try tauto; destruct (ev_kind c) as [rc|sc|]; try tauto; clear S1 S2.
  - destruct (Nat.compare_spec ra rb); try discriminate; destruct (Nat.compare_spec rb rc); try discriminate; destruct (Nat.compare_spec ra rc); try lia; auto.
    destruct (Nat.compare_spec (ev_class a) (ev_class b)); try discriminate; destruct (Nat.compare_spec (ev_class b) (ev_class c)); try discriminate; destruct (Nat.compare_spec (ev_class a) (ev_class c)); auto; lia.
  - destruct (Nat.compare_spec sa sb); try discriminate; destruct (Nat.compare_spec sb sc); try discriminate; destruct (Nat.compare_spec sa sc); try lia; auto.
    destruct (Nat.compare_spec (ev_class b) (ev_class a)); try discriminate; destruct (Nat.compare_spec (ev_class c) (ev_class b)); try discriminate; destruct (Nat.compare_spec (ev_class c) (ev_class a)); auto; lia.
Qed.
Lemma one_kind_same l a b : one_kind l (ev_pos a) -> In a l -> In b l -> ev_pos a = ev_pos b -> same_kind a b.
Proof.
  intros K Ia Ib E. assert (Fa : In a (filter (fun e => Nat.eqb (ev_pos e) (ev_pos a)) l)) by (apply filter_In; rewrite Nat.eqb_refl; auto).
  assert (Fb : In b (filter (fun e => Nat.eqb (ev_pos e) (ev_pos a)) l)) by (apply filter_In; rewrite E, Nat.eqb_refl; auto).
  unfold one_kind in K. cbn zeta in K. unfold same_kind. destruct K as [K|[K|K]]; rewrite Forall_forall in K; [left|right; left|right; right]; split; apply K; assumption.
Qed.
Lemma kinds_consistent l : (forall p, one_kind l p) -> consistent l.
Proof.
  intros K a b c Ia Ib Ic. apply nless_trans.
  - intros E. eapply one_kind_same; eauto.
  - intros E. eapply one_kind_same; eauto.
Qed.
Lemma SSorted_before {A} (R : A -> A -> Prop) l a b : StronglySorted R l -> before a b l -> R a b.
Proof.
  intros H (x & y & z & ->). revert H. induction x as [|c x IH]; cbn [app]; intros H; inversion H as [|? ? H1 F]; subst.
  - rewrite Forall_forall in F. apply F, in_app_iff. right. left. reflexivity.
  - apply IH, H1.
Qed.
Lemma before_filter {A} (f : A -> bool) a b l : f a = true -> f b = true -> before a b l -> before a b (filter f l).
Proof.
  intros Fa Fb (x & y & z & ->). exists (filter f x), (filter f y), (filter f z). rewrite filter_app. cbn [filter]. rewrite Fa, filter_app. cbn [filter]. rewrite Fb. reflexivity.
Qed.
(** all of it *)
Lemma emph_order sort us chars spans es out :
  event_sort sort (emph_events us 0 chars spans) = Ok es -> out = map (fun e => (ev_pos e, ev_sign e)) es ->
  sort_correct sort -> 
  forall p, (length (emph_events us 0 chars spans) <= 20 /\ one_kind (emph_events us 0 chars spans) p \/
             forall q, one_kind (emph_events us 0 chars spans) q) ->
  forall a b, before a b es -> ev_pos a = p -> ev_pos b = p -> in_order a b.
Proof.
  unfold event_sort. set (l := emph_events us 0 chars spans). intros E _ SC p K a b B Pa Pb.
  apply nless_order; [congruence|]. destruct (Nat.leb_spec (length l) 20) as [L|L].
  - injection E as <-. assert (K' : one_kind l p) by (destruct K as [[_ K]|K]; [exact K|apply K]).
    assert (C : consistent (filter (at_place p) l)).
    { apply kinds_consistent. intros q. unfold one_kind in *. cbn zeta in *. 
      assert (SUB : forall P, Forall P (filter (fun e => Nat.eqb (ev_pos e) p) l) -> Forall P (filter (fun e => Nat.eqb (ev_pos e) q) (filter (at_place p) l))).
      { intros P F. apply Forall_forall. intros x Hx. apply filter_In in Hx. rewrite Forall_forall in F. apply F, Hx. }
      destruct K' as [K'|[K'|K']]; auto. }
    pose proof (insertion_ordered _ C) as O. destruct (insertion_sort_facts l) as (_ & _ & FI). rewrite <- FI in O.
    refine (SSorted_before _ _ a b O _). apply before_filter; [unfold at_place; apply Nat.eqb_eq; exact Pa|unfold at_place; apply Nat.eqb_eq; exact Pb|exact B].
  - destruct K as [[K _]|K]; [lia|]. destruct (SC l (kinds_consistent l K)) as (l' & E' & _ & O). pose proof (eq_trans (eq_sym E) E') as X. injection X as ->.
    exact (SSorted_before _ _ a b O B).
Qed.
Lemma emph_inside sort us chars spans out : sort_rearranges sort -> emph_precompute sort us chars spans = Ok out ->
  Forall (fun x => fst x <= length chars /\ exists u, In u us /\ In (Some (snd x)) (class_signs u)) out.
Proof.
  intros SR. unfold emph_precompute. destruct (event_sort sort _) as [es| |] eqn:E; cbn [bind]; try discriminate. intros [= <-].
  assert (P : Permutation (emph_events us 0 chars spans) es).
  { unfold event_sort in E. destruct (Nat.leb _ 20); [injection E as <-; apply insertion_sort_facts|apply SR, E]. }
  apply Forall_forall. intros x Hx. apply in_map_iff in Hx. destruct Hx as (e & <- & He). apply (Permutation_in _ (Permutation_sym P)) in He.
  apply emph_events_In in He. destruct He as (i & u & Ei & He). apply events_inside in He. cbn [fst snd]. split; [apply He|]. exists u. split; [eapply nth_error_In; eauto|apply He].
Qed.
