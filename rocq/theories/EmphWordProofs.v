(** The signs of emphasised words, and of the classes of a table. *)
From Coq Require Import Permutation Sorted.
From Verif Require Import Base BaseProofs RuleModel TranslationModel TableModel ConstraintModel IndicatorModel IndicatorProofs
  CapsSpec CapsProofs EmphSpec EmphProofs SignSpec SignProofs CapsEmphSpec.

Lemma runs_unique P a b l : runs_in P a b l -> forall l', runs_in P a b l' -> l = l'.
Proof.
  induction 1 as [a b L N|a b s e ws L1 L2 L3 N Y E R IH]; intros l' H.
  - inversion H as [|? ? s e ws L1 L2 L3 N' Y E R]; subst; [reflexivity|]. exfalso. apply (N s); [lia|]. apply Y. lia.
  - inversion H as [? ? L N'|? ? s' e' ws' L1' L2' L3' N' Y' E' R']; subst.
    + exfalso. apply (N' s); [lia|]. apply Y. lia.
    + assert (s = s').
      { destruct (Nat.lt_trichotomy s s') as [X|[X|X]]; [exfalso; apply (N' s); [lia|apply Y; lia]|exact X|exfalso; apply (N s'); [lia|apply Y'; lia]]. }
      subst s'. assert (e = e').
      { destruct (Nat.lt_trichotomy e e') as [X|[X|X]]; [|exact X|].
        - exfalso. destruct E as [->|E]; [lia|]. apply E, Y'. lia.
        - exfalso. destruct E' as [->|E']; [lia|]. apply E', Y. lia. }
      subst e'. f_equal. apply IH, R'.
Qed.
Lemma runs_first P a b s e ws : runs_in P a b ((s, e) :: ws) -> a <= s < b /\ P s /\ forall q, a <= q < s -> ~ P q.
Proof. intros H. inversion H; subst. split; [lia|]. split; [|assumption]. match goal with Y : forall q, s <= q < e -> P q |- _ => apply Y; lia end. Qed.
Lemma runs_last P a b l : runs_in P a b l -> forall s e l', l = l' ++ [(s, e)] -> a < e <= b /\ P (e - 1) /\ forall q, e <= q < b -> ~ P q.
Proof.
  induction 1 as [a b L N|a b s e ws L1 L2 L3 N Y E R IH]; intros s' e' l' H; [destruct l'; discriminate|].
  destruct l' as [|x l'].
  - injection H as -> -> ->. inversion R; subst. split; [lia|]. split; [apply Y; lia|assumption].
  - injection H as H1 H2. destruct (IH _ _ _ H2) as (A & B & C). split; [lia|]. split; assumption.
Qed.

Section Words.
Variable u : emph_class.
Variable index : nat.
Variable chars : str.
Notation separator := (separator u chars).

Lemma words_of a b : a <= b -> b <= length chars -> run_words u chars a b (emph_words u chars a b).
Proof.
  intros L1 L2. unfold run_words, emph_words. pose proof (find_spans_runs (fun c => negb (emph_sep u c)) chars a b L1 L2) as R.
  revert R. generalize (find_spans (fun c => negb (emph_sep u c)) chars a b).
  assert (K : forall q, q < length chars -> (at_pos chars (fun c => negb (emph_sep u c)) q = true <-> ~ separator q)).
  { intros q Hq. rewrite <- sep_niff. unfold sep_at, at_pos. destruct (nth_error chars q) eqn:E; [apply negb_true_iff|]. apply nth_error_None in E. unfold char in *; lia. }
  clear L1. intros l R. induction R as [a b L N|a b s e ws X1 X2 X3 N Y E R IH]; constructor; auto.
  - intros q Hq H. apply (N q Hq), K; [lia|exact H].
  - intros q Hq H. apply (N q Hq), K; [lia|exact H].
  - intros q Hq. apply K; [lia|]. apply Y, Hq.
  - destruct E as [E|E]; [auto|]. destruct (Nat.eq_dec e b); [auto|]. right. intros H. apply E. apply K; [lia|exact H].
Qed.
Lemma sep_dec q : separator q \/ ~ separator q.
Proof. rewrite <- sep_iff. destruct (sep_at u chars q); [left|right]; congruence. Qed.
Lemma first_is a b w ws : a <= b -> run_words u chars a b (w :: ws) -> (match first_text u chars a b with Some i => i | None => a end) = fst w.
Proof.
  intros L R. destruct w as [s e]. apply runs_first in R. destruct R as (A & B & C). cbn.
  eapply run_starts_unique; [apply first_text_spec; exact L|]. left. split; [exact A|]. split; [exact B|].
  intros q Hq. destruct (sep_dec q) as [H|H]; [exact H|]. destruct (C q Hq H).
Qed.
Lemma last_is a b l w : a <= b -> run_words u chars a b (l ++ [w]) -> (match last_text u chars a b with Some i => S i | None => a end) = snd w.
Proof.
  intros L R. destruct w as [s e]. apply runs_last with (s := s) (e := e) (l' := l) in R; [|reflexivity]. destruct R as (A & B & C). cbn.
  pose proof (last_text_spec u chars a b L) as H. destruct (last_text u chars a b) as [i|].
  - destruct H as (H1 & H2 & H3). destruct (Nat.lt_trichotomy (S i) e) as [X|[X|X]]; [|exact X|].
    + exfalso. apply B, H3. lia.
    + exfalso. apply (C i); [lia|exact H2].
  - exfalso. apply B, H. lia.
Qed.
Lemma opt_ev_In p o e : In e (opt_ev index p o) <-> exists t, o = Some t /\ e = mk_event p KUnordered index t.
Proof.
  destruct o as [t|]; cbn; split.
  - intros [<-|[]]. eauto.
  - intros (t' & [= <-] & ->). auto.
  - intros [].
  - intros (t' & X & _). discriminate.
Qed.
Definition plain_event (P : nat -> resolved -> Prop) (e : event) : Prop := P (ev_pos e) (ev_sign e) /\ ev_kind e = KUnordered /\ ev_class e = index.
Lemma plain_ev (P : nat -> resolved -> Prop) p t : P p t -> plain_event P (mk_event p KUnordered index t).
Proof. intros H. split; [exact H|]. split; reflexivity. Qed.
Lemma opt_ev_plain p o e : In e (opt_ev index p o) <-> plain_event (put_sign p o) e.
Proof.
  rewrite opt_ev_In. unfold plain_event, put_sign. split.
  - intros (t & E & ->). cbn. auto.
  - intros ((H1 & H2) & H3 & H4). destruct e as [q k i t]. cbn in *. subst. eauto.
Qed.
Lemma word_ev w e : fst w < snd w -> In e (emit_single_word u index w) <-> plain_event (one_word u (fst w) (snd w)) e.
Proof.
  intros L. unfold emit_single_word, one_word. destruct w as [s t]; cbn [fst snd] in *. destruct (Nat.eqb_spec (t - s) 1) as [E|E].
  - destruct (em_letter u) as [l|] eqn:EL.
    + change [ev index s KUnordered l] with (opt_ev index s (Some l)). rewrite opt_ev_plain. unfold plain_event. split.
      * intros (H1 & H2). split; [|exact H2]. left. split; [lia|]. split; [congruence|exact H1].
      * intros ([(_ & _ & H)|([H|H] & _)] & H2); [auto|lia|discriminate].
    + rewrite opt_ev_plain. unfold plain_event. split.
      * intros (H1 & H2). split; [|exact H2]. right. split; [auto|exact H1].
      * intros ([(_ & H & _)|(_ & H)] & H2); [congruence|auto].
  - rewrite opt_ev_plain. unfold plain_event. split.
    + intros (H1 & H2). split; [|exact H2]. right. split; [left; lia|exact H1].
    + intros ([(H & _)|(_ & H)] & H2); [lia|auto].
Qed.
Lemma last_word_last (ws : list (nat * nat)) : forall w, last_word (w :: ws) (last ws w).
Proof.
  induction ws as [|v r IH]; intros w; [exists []; reflexivity|]. destruct (IH v) as (l & E). exists (w :: l).
  assert (G : last (v :: r) w = last r v).
  { clear. revert v. induction r as [|a r IH]; intros v; [reflexivity|]. change (last (v :: a :: r) w) with (last (a :: r) w). rewrite IH.
    destruct r; [reflexivity|]. change (last (a :: p :: r) v) with (last (p :: r) v). clear. revert p. induction r as [|b r IH]; intros p; [reflexivity|]. apply IH. }
  rewrite G. cbn [app]. rewrite <- E. reflexivity.
Qed.
Lemma last_word_unique (ws : list (nat * nat)) w w' : last_word ws w -> last_word ws w' -> w = w'.
Proof. intros (l & ->) (l' & E). apply app_inj_tail in E. apply E. Qed.
Lemma part_events a b w ws w' e : first_word (w :: ws) w -> last_word (w :: ws) w' -> ~ whole_words u chars (fst w) (snd w') ->
  (In e (emit_partial u index chars a b w ws) <-> plain_event (word_sign u chars a b (w :: ws)) e).
Proof.
  intros FW LW W.
  assert (FU : forall v, first_word (w :: ws) v -> v = w) by (intros v (r & X); congruence).
  assert (LU : forall v, last_word (w :: ws) v -> v = w') by (intros v X; eapply last_word_unique; eauto).
  unfold emit_partial. set (total := list_sum (map (fun p => snd p - fst p) (w :: ws))).
  destruct (if Nat.eqb total 1 then em_letter u else None) as [t0|] eqn:ET.
  - destruct (Nat.eqb_spec total 1) as [T|T]; [|discriminate].
    change [ev index (fst w) KUnordered t0] with (opt_ev index (fst w) (Some t0)). rewrite <- ET, opt_ev_plain. split.
    + intros (H & K). split; [|exact K]. eapply WS_part_letter; eauto. congruence.
    + intros (H & K). split; [|exact K]. destruct H as [v v' F1 F2 H1 H2 H3 H4|v v' y F1 F2 H1 H2 H3 H4|v v' F1 F2 H1 H2 H3 H4|v v' F1 F2 H1 H2 H3 H4|v v' F1 F2 H1 H2 H3 H4];
        rewrite (FU _ F1), ?(LU _ F2) in *; try contradiction; try (destruct H2; [contradiction|congruence]). exact H4.
  - assert (T : total <> 1 \/ em_letter u = None) by (destruct (Nat.eqb_spec total 1); auto).
    assert (NL : ~ (total = 1 /\ em_letter u <> None)) by (intros [X Y]; destruct T; congruence).
    destruct (em_begword u) as [bw|] eqn:EBW; [|destruct (em_begphrase u) as [bp|] eqn:EBP].
    + change (ev index a KUnordered bw :: ?l) with (opt_ev index a (Some bw) ++ l). rewrite <- EBW.
      rewrite in_app_iff, opt_ev_plain. split.
      * intros H. assert (P : plain_event (fun q t => put_sign a (em_begword u) q t \/
             b < length chars /\ ~ separator b /\ put_sign b (em_endword u) q t) e).
        { destruct H as [(H & K)|H]; [split; auto|]. destruct (Nat.ltb_spec b (length chars)) as [LB|LB]; [|destruct H].
          destruct (sep_at u chars b) eqn:SB; [destruct H|]. cbn [negb andb] in H. apply sep_niff in SB. apply opt_ev_plain in H. destruct H as (H & K). split; auto. }
        destruct P as (P & K). split; [|exact K]. eapply WS_part_word; eauto. congruence.
      * intros (H & K). destruct H as [v v' F1 F2 H1 H2 H3 H4|v v' y F1 F2 H1 H2 H3 H4|v v' F1 F2 H1 H2 H3 H4|v v' F1 F2 H1 H2 H3 H4|v v' F1 F2 H1 H2 H3 H4];
          rewrite (FU _ F1), ?(LU _ F2) in *; try contradiction; try (destruct NL; auto; fail); try congruence.
        destruct H4 as [H4|(LB & SB & H4)]; [left; split; assumption|right]. apply Nat.ltb_lt in LB. apply sep_niff in SB. rewrite LB, SB. cbn [andb negb].
        apply opt_ev_plain. split; assumption.
    + change (ev index a KUnordered bp :: ?l) with (opt_ev index a (Some bp) ++ l). rewrite <- EBP.
      rewrite in_app_iff, opt_ev_plain. split.
      * intros H. assert (P : plain_event (fun q t => put_sign a (em_begphrase u) q t \/
             b < length chars /\ put_sign b (em_endphrase u) q t) e).
        { destruct H as [(H & K)|H]; [split; auto|]. destruct (Nat.ltb_spec b (length chars)) as [LB|LB]; [|destruct H].
          apply opt_ev_plain in H. destruct H as (H & K). split; auto. }
        destruct P as (P & K). split; [|exact K]. eapply WS_part_phrase; eauto. congruence.
      * intros (H & K). destruct H as [v v' F1 F2 H1 H2 H3 H4|v v' y F1 F2 H1 H2 H3 H4|v v' F1 F2 H1 H2 H3 H4|v v' F1 F2 H1 H2 H3 H4|v v' F1 F2 H1 H2 H3 H4 H5];
          rewrite (FU _ F1), ?(LU _ F2) in *; try contradiction; try (destruct NL; auto; fail); try congruence.
        destruct H5 as [H5|(LB & H5)]; [left; split; assumption|right]. apply Nat.ltb_lt in LB. rewrite LB.
        apply opt_ev_plain. split; assumption.
    + split; [intros []|]. intros (H & K). destruct H as [v v' F1 F2 H1 H2 H3 H4|v v' y F1 F2 H1 H2 H3 H4|v v' F1 F2 H1 H2 H3 H4|v v' F1 F2 H1 H2 H3 H4|v v' F1 F2 H1 H2 H3 H4 H5];
          rewrite (FU _ F1), ?(LU _ F2) in *; try contradiction; try (destruct NL; auto; fail); try congruence.
Qed.
Lemma words_events a b ws e : a < b -> b <= length chars -> em_beg u = None -> run_words u chars a b ws ->
  (In e (emph_emit_run u index chars a b) <-> plain_event (word_sign u chars a b ws) e).
Proof.
  intros L1 L2 EB R. unfold emph_emit_run. rewrite EB.
  assert (EW : emph_words u chars a b = ws) by (eapply runs_unique; [apply words_of; lia|exact R]). rewrite EW.
  destruct ws as [|w ws].
  { split; [intros []|]. intros (H & _). destruct H as [w w' (r & X)|w w' v (r & X)|w w' (r & X)|w w' (r & X)|w w' (r & X)]; discriminate X. }
  rewrite (first_is a b w ws) by (lia || exact R).
  assert (LWD := last_word_last ws w). set (w' := last ws w) in *. destruct LWD as (l & EL). rewrite (last_is a b l w') by (lia || rewrite <- EL; exact R).
  assert (FW : first_word (w :: ws) w) by (exists ws; reflexivity). assert (LW : last_word (w :: ws) w') by (exists l; exact EL).
  assert (FU : forall v, first_word (w :: ws) v -> v = w) by (intros v (r & X); congruence).
  assert (LU : forall v, last_word (w :: ws) v -> v = w') by (intros v X; eapply last_word_unique; eauto).
  assert (POS : forall v, In v (w :: ws) -> fst v < snd v).
  { intros v Hv. pose proof (words_inside u chars a b ltac:(lia) L2) as F. rewrite EW, Forall_forall in F. specialize (F v Hv). lia. }
  assert (INL : In w' (w :: ws)) by (rewrite EL; apply in_elt).
  assert (CLEAN : ((Nat.eqb (fst w) 0 || sep_at u chars (fst w - 1)) && (Nat.leb (length chars) (snd w') || sep_at u chars (snd w')))%bool = true <-> whole_words u chars (fst w) (snd w')).
  { unfold whole_words. rewrite andb_true_iff, !orb_true_iff, !sep_iff, Nat.eqb_eq, Nat.leb_le. reflexivity. }
  destruct ((Nat.eqb (fst w) 0 || sep_at u chars (fst w - 1)) && (Nat.leb (length chars) (snd w') || sep_at u chars (snd w')))%bool eqn:EC.
  - assert (W : whole_words u chars (fst w) (snd w')) by (apply CLEAN; reflexivity). clear CLEAN EC.
    unfold emit_clean_words. fold w'. destruct (N.leb_spec (em_len u) (N.of_nat (S (length ws)))) as [G|G].
    + destruct (em_begphrase u) as [bp|] eqn:EP.
      * cbn [In]. split.
        -- intros H. assert (P : plain_event (fun q t => put_sign (fst w) (em_begphrase u) q t \/
             em_before u = true /\ one_word u (fst w') (snd w') q t \/ em_before u = false /\ put_sign (snd w') (em_endphrase u) q t) e).
           { destruct H as [<-|H].
             - apply plain_ev. left. split; [reflexivity|exact EP].
             - destruct (em_before u).
               + apply word_ev in H; [|apply POS, INL]. destruct H as (H & K). split; [|exact K]. right; left. auto.
               + apply opt_ev_plain in H. destruct H as (H & K). split; [|exact K]. right; right. auto. }
           destruct P as (P & K). split; [|exact K]. eapply WS_phrase; eauto. congruence.
        -- intros (H & K). destruct H as [v v' F1 F2 H1 H2 H3 H4|v v' y F1 F2 H1 H2 H3 H4|v v' F1 F2 H1 H2 H3 H4|v v' F1 F2 H1 H2 H3 H4|v v' F1 F2 H1 H2 H3 H4];
             rewrite (FU _ F1), (LU _ F2) in *; try contradiction.
           ++ destruct H4 as [H4|[(B & H4)|(B & H4)]].
              ** left. destruct H4 as [H5 H6], K as [K1 K2], e as [q k i t]. cbn in *. rewrite EP in H6. injection H6 as ->. subst. reflexivity.
              ** right. rewrite B. apply word_ev; [apply POS, INL|]. split; assumption.
              ** right. rewrite B. apply opt_ev_plain. split; assumption.
           ++ destruct H2 as [H2|H2]; [cbn [length] in H2; lia|congruence].
      * split.
        -- intros H. apply in_flat_map in H. destruct H as (v & Hv & H). apply word_ev in H; [|apply POS, Hv]. destruct H as (H & K). split; [|exact K]. eapply WS_words; eauto.
        -- intros (H & K). apply in_flat_map. destruct H as [v v' F1 F2 H1 H2 H3 H4|v v' y F1 F2 H1 H2 H3 H4|v v' F1 F2 H1 H2 H3 H4|v v' F1 F2 H1 H2 H3 H4|v v' F1 F2 H1 H2 H3 H4];
             rewrite (FU _ F1), (LU _ F2) in *; try contradiction; try congruence. exists y. split; [exact H3|]. apply word_ev; [apply POS, H3|]. split; assumption.
    + split.
      -- intros H. apply in_flat_map in H. destruct H as (v & Hv & H). apply word_ev in H; [|apply POS, Hv]. destruct H as (H & K). split; [|exact K]. eapply WS_words; eauto.
      -- intros (H & K). apply in_flat_map. destruct H as [v v' F1 F2 H1 H2 H3 H4|v v' y F1 F2 H1 H2 H3 H4|v v' F1 F2 H1 H2 H3 H4|v v' F1 F2 H1 H2 H3 H4|v v' F1 F2 H1 H2 H3 H4];
             rewrite (FU _ F1), (LU _ F2) in *; try contradiction; try (cbn [length] in *; lia). exists y. split; [exact H3|]. apply word_ev; [apply POS, H3|]. split; assumption.
  - assert (W : ~ whole_words u chars (fst w) (snd w')) by (rewrite <- CLEAN; discriminate). clear CLEAN EC.
    apply part_events with w'; assumption.
Qed.
End Words.
