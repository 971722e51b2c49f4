(** The loop of a correct, pass2, pass3 or pass4 pass makes the choices of [PassSpec]. *)
From Verif Require Import Base BaseProofs RuleModel TranslationModel TranslationProofs TableModel RegexpModel
  PatternModel LoopModel LoopProofs MultipassProofs PassSpec.

Lemma cpats_find_In lower e b rest u : forall ps l, cpats_find lower ps e b rest = Ok l ->
  In u l <-> exists p, In p ps /\ cpat_find lower p e b rest = Ok (Some u).
Proof.
  induction ps as [|p ps IH]; intros l; cbn [cpats_find].
  - intros [= <-]. split; [intros []|intros (p & [] & _)].
  - destruct (cpat_find lower p e b rest) as [o| |] eqn:Ep; try discriminate. cbn [bind].
    destruct (cpats_find lower ps e b rest) as [l'| |]; try discriminate. cbn [bind].
    specialize (IH l' eq_refl). destruct o as [v|]; intros [= <-].
    + cbn [In]. rewrite IH. split.
      * intros [<-|(q & Hq & Eq)]; [exists p; auto|exists q; auto].
      * intros (q & [<-|Hq] & Eq); [left|right; eauto]. rewrite Ep in Eq. injection Eq as <-. reflexivity.
    + rewrite IH. split; [intros (q & Hq & Eq); exists q; split; [right; exact Hq|exact Eq]|]. intros (q & [<-|Hq] & Eq); [congruence|eauto].
Qed.

Lemma filter_filter {A} (f g : A -> bool) l : filter f (filter g l) = filter (fun x => g x && f x)%bool l.
Proof. induction l as [|x l IH]; [reflexivity|]. cbn [filter]. destruct (g x); cbn [filter andb]; rewrite IH; reflexivity. Qed.
(** a kept element of what is found, and the rule that found it *)
Lemma find_order lower e b rest g : forall ps l, cpats_find lower ps e b rest = Ok l ->
  forall l1 t l2, filter g l = l1 ++ t :: l2 ->
  exists ps1 p ps2, ps = ps1 ++ p :: ps2 /\ cpat_find lower p e b rest = Ok (Some t) /\ g t = true /\
    forall q u, In q ps2 -> cpat_find lower q e b rest = Ok (Some u) -> g u = true -> In u l2.
Proof.
  induction ps as [|p ps IH]; intros l; cbn [cpats_find].
  - intros [= <-] l1 t l2 E. destruct l1; discriminate.
  - destruct (cpat_find lower p e b rest) as [o| |] eqn:Ep; try discriminate. cbn [bind].
    destruct (cpats_find lower ps e b rest) as [l'| |] eqn:El; try discriminate. cbn [bind].
    specialize (IH l' eq_refl).
    assert (REST : forall l1 t l2, filter g l' = l1 ++ t :: l2 ->
      exists ps1 p0 ps2, p :: ps = ps1 ++ p0 :: ps2 /\ cpat_find lower p0 e b rest = Ok (Some t) /\ g t = true /\
        forall q u, In q ps2 -> cpat_find lower q e b rest = Ok (Some u) -> g u = true -> In u l2).
    { intros l1 t l2 E. destruct (IH l1 t l2 E) as (ps1 & p0 & ps2 & -> & H1 & H2 & H3). exists (p :: ps1), p0, ps2. auto. }
    destruct o as [v|]; intros [= <-] l1 t l2 E; [|eapply REST, E].
    cbn [filter] in E. destruct (g v) eqn:Gv; [|eapply REST, E]. destruct l1 as [|y l1]; cbn [app] in E.
    + injection E as -> E. exists [], p, ps. split; [reflexivity|]. split; [exact Ep|]. split; [exact Gv|].
      intros q u Hq Eq Gu. rewrite <- E. apply filter_In. split; [|exact Gu]. apply (cpats_find_In _ _ _ _ _ _ _ El). eauto.
    + injection E as _ E. eapply REST, E.
Qed.

Section Loop.
Variable lower : char -> list char.
Variable ps : list cpat.
Variable st : stage.
Variable input : str.
Hypothesis Hps : Forall rule_pattern ps.
Notation n := (length input).
Notation minv := (minv lower ps st input).
Notation finds := (finds lower input ps).
Notation held := (held lower input ps).
Notation direct := (direct lower input).
Notation chosen_next := (chosen_next lower st input ps).
Notation pass_over := (pass_over lower input ps).
Notation stood_for := PassSpec.stood_for.

Lemma stood_app a b : stood_for (a ++ b) = stood_for a + stood_for b.
Proof. unfold PassSpec.stood_for. rewrite flat_map_app, app_length. reflexivity. Qed.
(** an offer waiting for its position *)
Definition waiting (a : list resolved) (u : resolved) : Prop :=
  exists b c v, a = b ++ c /\ c <> [] /\ finds b v /\ 0 < r_offset v /\ stood_for c <= r_offset v /\
    ((exists c' y, c = c' ++ [y] /\ 0 < r_length y) \/ stood_for c < r_offset v) /\
    u = with_offset v (r_offset v - stood_for c).
Record mtracks (s : mstate) (a : list resolved) : Prop := mk_mtracks {
  mt_inv : minv s (stood_for a);
  mt_out : m_out s = a;
  mt_length : forall t, In t a -> r_length t = length (r_input t);
  mt_delayed : forall u, In u (m_delayed s) <-> waiting a u;
  mt_choices : forall a1 t b, a = a1 ++ t :: b -> chosen_next a1 t }.
Lemma mtracks_found s a l u : mtracks s a ->
  cpats_find lower ps (m_env s) (Nat.eqb (stood_for a) 0) (m_rest s) = Ok l -> In u l <-> finds a u.
Proof.
  intros T E. rewrite (mi_rest _ _ _ _ _ _ (mt_inv s a T)) in E. rewrite (cpats_find_In _ _ _ _ _ _ _ E).
  unfold PassSpec.finds, assigned. pose proof (mi_env _ _ _ _ _ _ (mt_inv s a T)) as EE. rewrite (mt_out s a T) in EE. split.
  - intros (p & H). exists (m_env s), p. auto.
  - intros (e & p & V & H). rewrite EE in V. injection V as <-. eauto.
Qed.
Lemma waiting_snoc a x u : r_length x = stood_for [x] ->
  waiting (a ++ [x]) u <->
  exists v, (waiting a v \/ finds a v) /\ r_offset v <> 0 /\ r_length x <= r_offset v /\
            u = with_offset v (r_offset v - r_length x).
Proof.
  intros LX. unfold waiting. split.
  - intros (b & c & v & E & NE & H1 & H2 & H3 & H4 & ->).
    destruct (exists_last NE) as (c' & y & Ec). subst c. rewrite app_assoc in E. apply app_inj_tail in E. destruct E as [E ->].
    rewrite stood_app, <- LX in *. destruct c' as [|z c'].
    + exists v. rewrite app_nil_r in E. subst b. change (stood_for []) with 0 in *. cbn [plus] in *.
      split; [right; exact H1|]. split; [lia|]. split; [lia|]. reflexivity.
    + exists (with_offset v (r_offset v - stood_for (z :: c'))). split.
      * left. exists b, (z :: c'), v. split; [exact E|]. split; [discriminate|]. split; [exact H1|]. split; [exact H2|].
        split; [lia|]. split; [right|reflexivity].
        destruct H4 as [(d & w & Ed & L)|L]; [|lia]. change (z :: c' ++ [y]) with ((z :: c') ++ [y]) in Ed. apply app_inj_tail in Ed. destruct Ed as [_ ->]. lia.
      * cbn [with_offset r_offset].
        assert (0 < r_offset v - stood_for (z :: c')).
        { destruct H4 as [(d & w & Ed & L)|L]; [|lia]. change (z :: c' ++ [y]) with ((z :: c') ++ [y]) in Ed. apply app_inj_tail in Ed. destruct Ed as [_ ->]. lia. }
        split; [lia|]. split; [lia|]. rewrite Nat.sub_add_distr. reflexivity.
  - intros (v & [(b & c & w & E & NE & H1 & H2 & H3 & H4 & ->)|F] & Z & L & ->).
    + exists b, (c ++ [x]), w. cbn [with_offset r_offset] in *. rewrite stood_app, <- LX, app_assoc.
      split; [rewrite E; reflexivity|]. split; [destruct c; discriminate|]. split; [exact H1|]. split; [exact H2|].
      split; [lia|]. split; [destruct (Nat.eq_dec (r_length x) 0); [right; lia|left; exists c, x; split; [reflexivity|lia]]|].
      rewrite Nat.sub_add_distr. reflexivity.
    + exists a, [x], v. rewrite <- LX. split; [reflexivity|]. split; [discriminate|].
      split; [exact F|]. split; [lia|]. split; [exact L|].
      split; [destruct (Nat.eq_dec (r_length x) 0); [right; lia|left; exists [], x; split; [reflexivity|lia]]|].
      reflexivity.
Qed.
Lemma waiting_held a u : (waiting a u /\ r_offset u = 0) /\ not_made a u <-> held a u.
Proof.
  unfold waiting, PassSpec.held. apply and_iff_compat_r. split.
  - intros [(b & c & v & E & NE & H1 & H2 & H3 & H4 & ->) Z]. cbn [with_offset r_offset] in Z.
    assert (R : stood_for c = r_offset v) by lia. destruct H4 as [(c' & y & -> & L)|L]; [|lia].
    exists b, c', y, v. rewrite R, Nat.sub_diag. auto 7.
  - intros (b & c & y & v & E & L & H1 & H2 & H3 & ->). split; [|reflexivity].
    exists b, (c ++ [y]), v. rewrite H3, Nat.sub_diag. split; [exact E|]. split; [destruct c; discriminate|].
    split; [exact H1|]. split; [exact H2|]. split; [lia|]. split; [left; eauto|reflexivity].
Qed.
Lemma step_tracks s a : mtracks s a ->
  exists r, multipass_step lower ps st input s = Ok r /\
    match r with
    | MGo s' => exists t, mtracks s' (a ++ [t]) /\ measure ps input s' < measure ps input s
    | MStop out => out = a /\ pass_over a
    end.
Proof.
  intros T. pose proof (step_inv lower ps st input Hps s (stood_for a) (mt_inv s a T)) as SI.
  destruct SI as (r & Er & SI). exists r. split; [exact Er|].
  pose proof (mt_inv s a T) as MI. pose proof (mi_rest _ _ _ _ _ _ MI) as P2. pose proof (mi_pos _ _ _ _ _ _ MI) as P1.
  pose proof (mi_recent _ _ _ _ _ _ MI) as PR. rewrite (mt_out s a T) in PR. change (recent a) with (insertions a) in PR.
  revert Er. unfold multipass_step. rewrite P2, blen_skipn by exact P1. rewrite <- P2.
  destruct (cpats_find lower ps (m_env s) (Nat.eqb (stood_for a) 0) (m_rest s)) as [found| |] eqn:Ef; try discriminate. cbn [bind].
  pose proof (fun u => mtracks_found s a found u T Ef) as FF.
  set (delayed := m_delayed s ++ later found). set (cands := now found ++ now delayed).
  assert (CA : forall u, In u (unseen (m_seen s) cands) <-> direct ps a u \/ held a u).
  { intros u. rewrite unseen_In, PR. unfold PassSpec.direct. rewrite <- waiting_held, <- (mt_delayed s a T), <- FF.
    unfold cands, delayed, not_made. rewrite in_app_iff, !now_In, in_app_iff, later_In. tauto. }
  assert (DE : forall x u, r_length x = stood_for [x] -> In u (update_offsets (later delayed) (r_length x)) <-> waiting (a ++ [x]) u).
  { intros y u LY. rewrite update_offsets_In, (waiting_snoc a y u LY).
    assert (Q : forall v, In v (later delayed) <-> (waiting a v \/ finds a v) /\ r_offset v <> 0).
    { intros v. rewrite later_In. unfold delayed. rewrite in_app_iff, later_In, (mt_delayed s a T), FF. tauto. }
    split.
    - intros (v & H & L & ->). apply Q in H. exists v. tauto.
    - intros (v & H & Z & L & ->). exists v. rewrite Q. tauto. }
  pose proof (max_weight_spec (unseen (m_seen s) cands)) as MW.
  assert (NEXT : forall t, (exists e, env_apply_all (m_env s) (r_effects t) = Ok e) -> forall s', minv s' (stood_for (a ++ [t])) ->
    r_length t = length (r_input t) ->
    m_out s' = m_out s ++ [t] -> m_delayed s' = update_offsets (later delayed) (r_length t) ->
    chosen_next a t -> mtracks s' (a ++ [t])).
  { intros t _ s' I' L Eo Ed CH. constructor.
    - exact I'.
    - rewrite Eo, (mt_out s a T). reflexivity.
    - intros y Hy. apply in_app_or in Hy. destruct Hy as [Hy|[<-|[]]]; [apply (mt_length s a T y Hy)|exact L].
    - intros u. rewrite Ed. apply DE. unfold PassSpec.stood_for. cbn [flat_map]. rewrite app_nil_r. exact L.
    - intros a1 y b E. destruct b as [|z b] using rev_ind.
      + apply app_inj_tail in E. destruct E as [-> ->]. exact CH.
      + rewrite app_comm_cons, app_assoc in E. apply app_inj_tail in E. destruct E as [E _]. eapply (mt_choices s a T), E. }
  assert (LAST : forall s' pos', minv s' pos' -> pos' = stood_for (m_out s')).
  { intros s' pos' I'. unfold PassSpec.stood_for. rewrite (mi_out _ _ _ _ _ _ I'), firstn_length.
    pose proof (mi_pos _ _ _ _ _ _ I'). unfold char in *. lia. }
  destruct (max_weight (unseen (m_seen s) cands)) as [t|] eqn:EM.
  - destruct (env_apply_all (m_env s) (r_effects t)) as [e| |] eqn:Ee; try discriminate. cbn [bind]. intros [= <-].
    destruct SI as (pos' & I' & M' & _). exists t. split; [|exact M'].
    assert (LT : r_length t = length (r_input t)).
    { pose proof (mi_pieces _ _ _ _ _ _ I') as PP.
      assert (EO : m_out (if Nat.eqb (r_length t) 0 then mk_mstate (m_rest s) (update_offsets (later delayed) (r_length t)) e (subset_of t :: m_seen s) (m_out s ++ [t])
        else mk_mstate (skipn (r_length t) (m_rest s)) (update_offsets (later delayed) (r_length t)) e [] (m_out s ++ [t])) = m_out s ++ [t])
        by (destruct (Nat.eqb (r_length t) 0); reflexivity).
      rewrite EO in PP. apply mpieces_app in PP. destruct PP as [_ PP]. apply PP. }
    apply NEXT.
    + eauto.
    + rewrite (LAST _ _ I') in I'. revert I'. destruct (Nat.eqb (r_length t) 0); cbn [m_out]; rewrite (mt_out s a T); auto.
    + exact LT.
    + destruct (Nat.eqb (r_length t) 0); reflexivity.
    + destruct (Nat.eqb (r_length t) 0); reflexivity.
    + left. split; [intros u Hu; apply MW, CA, Hu|].
      apply max_weight_last in EM. destruct EM as (l1 & l2 & EL & _ & ML).
      unfold unseen, cands in EL. rewrite filter_app in EL. symmetry in EL. apply app_eq_app in EL.
      assert (HD : forall u, held a u <-> In u (filter (fun t => negb (was_seen (m_seen s) t)) (now delayed))).
      { intros u. change (filter (fun t => negb (was_seen (m_seen s) t)) (now delayed)) with (unseen (m_seen s) (now delayed)).
        rewrite unseen_In, now_In, <- waiting_held, <- (mt_delayed s a T), PR. unfold delayed, not_made. rewrite in_app_iff, later_In. tauto. }
      destruct EL as (w & [(E1 & E2)|(E1 & E2)]).
      * left. apply HD. rewrite E2. apply in_or_app. simpl. auto.
      * destruct w as [|z w]; [left; apply HD; cbn [app] in E2; rewrite <- E2; simpl; auto|].
        injection E2 as <- E2. right. split.
        -- intros u Hu. apply ML. rewrite E2. apply in_or_app. right. apply HD, Hu.
        -- unfold now in E1. rewrite filter_filter in E1.
           destruct (find_order _ _ _ _ _ _ _ Ef _ _ _ E1) as (ps1 & p & ps2 & Eps & Fp & Gt & H).
           exists ps1, p, ps2. split; [exact Eps|].
           assert (GG : forall u, (at_zero u && negb (was_seen (m_seen s) u))%bool = true <-> r_offset u = 0 /\ not_made a u).
           { intros u. unfold at_zero, not_made. rewrite andb_true_iff, Nat.eqb_eq, negb_true_iff, <- PR, <- was_seen_In.
             destruct (was_seen (m_seen s) u); intuition congruence. }
           pose proof (mi_env _ _ _ _ _ _ MI) as EE. rewrite (mt_out s a T) in EE.
           split.
           ++ split; [|apply GG, Gt]. exists (m_env s), p. split; [exact EE|]. split; [left; reflexivity|]. rewrite <- P2. exact Fp.
           ++ intros u ((e' & q & Ee' & Hq & Fq) & Hu). apply ML. rewrite E2. apply in_or_app. left. apply (H q u Hq); [|apply GG, Hu].
              unfold assigned in Ee'. rewrite EE in Ee'. injection Ee' as <-. rewrite P2. exact Fq.
  - assert (NO : forall u, ~ direct ps a u /\ ~ held a u).
    { intros u. assert (X : ~ (direct ps a u \/ held a u)) by (intros Hu; apply CA in Hu; rewrite MW in Hu; destruct Hu). tauto. }
    destruct (m_rest s) as [|c rr] eqn:Es.
    + intros [= <-]. destruct SI as (_ & L & _). split; [apply (mt_out s a T)|]. split; [exact L|exact NO].
    + intros [= <-]. destruct SI as (pos' & I' & M' & _). exists (resolved_new [c] [c] 1 st None). split; [|exact M']. apply NEXT.
      * eexists; reflexivity.
      * rewrite (LAST _ _ I') in I'. cbn [m_out] in I'. rewrite (mt_out s a T) in I' at 2. exact I'.
      * reflexivity.
      * reflexivity.
      * reflexivity.
      * right. split; [exact NO|]. exists c, rr. rewrite <- P2. auto.
Qed.
Lemma loop_tracks fuel : forall s a, mtracks s a -> measure ps input s < fuel ->
  exists out, multipass_loop lower ps st input fuel s = Ok out /\
    (forall a1 t b, out = a1 ++ t :: b -> chosen_next a1 t) /\ pass_over out /\
    (forall t, In t out -> r_length t = length (r_input t)).
Proof.
  induction fuel as [|f IH]; intros s a T M; [lia|]. cbn [multipass_loop].
  destruct (step_tracks s a T) as (r & Er & H). rewrite Er. cbn [bind]. destruct r as [s'|out].
  - destruct H as (t & T' & M'). apply (IH s' _ T'). lia.
  - destruct H as (-> & PO). exists a. split; [reflexivity|]. split; [apply (mt_choices s a T)|]. split; [exact PO|apply (mt_length s a T)].
Qed.
Lemma trace_choices out : multipass_trace lower ps st input = Ok out ->
  (forall a t b, out = a ++ t :: b -> chosen_next a t) /\ pass_over out.
Proof.
  intros E. destruct (loop_tracks (multipass_fuel ps input) (multipass_init input) []) as (out' & E' & H1 & H2 & _).
  - constructor.
    + apply (init_inv lower ps st input).
    + reflexivity.
    + intros t [].
    + intros u. cbn [multipass_init m_delayed]. split; [intros []|]. intros (b & c & v & E0 & NE & _). destruct b, c; try discriminate. congruence.
    + intros a1 t b E0. destruct a1; discriminate.
  - unfold measure, multipass_fuel. cbn [multipass_init m_rest m_seen length]. rewrite universe_length. lia.
  - unfold multipass_trace in E. rewrite E in E'. injection E' as <-. auto.
Qed.
End Loop.
