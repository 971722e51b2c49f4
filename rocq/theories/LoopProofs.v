(** Facts shared by the two translation loops, and the loop of the multipass tables. *)
From Coq Require Import Permutation.
From Verif Require Import Base BaseProofs RuleModel TranslationModel TranslationProofs TableModel RegexpModel
  RegexpSpec RegexpCorrect PatternModel MatchProofs TrieModel LoopModel.

(** ** The choice among candidates *)
Lemma max_weight_fold l : forall best,
  match fold_left (fun best t => match best with
                           | None => Some t
                           | Some b => if Nat.leb (r_weight b) (r_weight t) then Some t else Some b
                           end) l best with
  | None => best = None /\ l = []
  | Some t => (best = Some t \/ In t l) /\ (forall b, best = Some b -> r_weight b <= r_weight t) /\
              forall u, In u l -> r_weight u <= r_weight t
  end.
Proof.
  induction l as [|x l IH]; intros best; simpl.
  - destruct best as [b|]; [|auto]. split; auto. split; [intros ? [= <-]; lia|intros ? []].
  - set (b' := match best with None => Some x | Some b => _ end). specialize (IH b').
    assert (B : exists y, b' = Some y).
    { unfold b'. destruct best as [b|]; [destruct (Nat.leb _ _)|]; eauto. }
    destruct B as (y & Ey). destruct (fold_left _ l b') as [t|]; [|destruct IH; congruence].
    destruct IH as (I1 & I2 & I3). specialize (I2 y Ey).
    assert (X : (y = x \/ best = Some y) /\ r_weight x <= r_weight y /\
                forall b, best = Some b -> r_weight b <= r_weight y).
    { unfold b' in Ey. destruct best as [b|].
      - destruct (Nat.leb_spec (r_weight b) (r_weight x)); injection Ey as <-; repeat split; auto; try lia;
          intros ? [= <-]; lia.
      - injection Ey as <-. repeat split; auto. intros ? [=]. }
    destruct X as (X1 & X2 & X3). split; [|split].
    + destruct I1 as [I1|I1]; [|auto]. rewrite Ey in I1. injection I1 as ->. destruct X1 as [->|X1]; auto.
    + intros b Eb. specialize (X3 b Eb). lia.
    + intros u [<-|Hu]; [lia|auto].
Qed.
Lemma max_weight_spec l :
  match max_weight l with
  | None => l = []
  | Some t => In t l /\ forall u, In u l -> r_weight u <= r_weight t
  end.
Proof.
  pose proof (max_weight_fold l None) as H. unfold max_weight. destruct (fold_left _ l None).
  - destruct H as ([H|H] & _ & H2); [discriminate|auto].
  - tauto.
Qed.
Lemma max_weight_none l : max_weight l = None <-> l = [].
Proof.
  pose proof (max_weight_spec l) as H. destruct (max_weight l); split; intros E; subst; auto; try discriminate.
  destruct H as [[] _].
Qed.
(** Of several of the same weight, the last one. *)
Lemma max_weight_last l t : max_weight l = Some t <->
  exists a b, l = a ++ t :: b /\ (forall u, In u a -> r_weight u <= r_weight t) /\
              (forall u, In u b -> r_weight u < r_weight t).
Proof.
  unfold max_weight. induction l as [|x l IH] using rev_ind; simpl.
  - split; [discriminate|]. intros (a & b & E & _). destruct a; discriminate.
  - rewrite fold_left_app. simpl. pose proof (max_weight_spec l) as S. unfold max_weight in S.
    destruct (fold_left _ l None) as [b0|] eqn:Eb.
    + destruct (Nat.leb_spec (r_weight b0) (r_weight x)).
      * split.
        -- intros [= <-]. exists l, []. split; [reflexivity|]. split; [|intros ? []].
           intros u Hu. destruct S as [_ S]. specialize (S u Hu). lia.
        -- intros (a & b & E & Ha & Hb). destruct b as [|y b] using rev_ind.
           ++ apply app_inj_tail in E. destruct E as [_ ->]. reflexivity.
           ++ exfalso. rewrite app_comm_cons, app_assoc in E. apply app_inj_tail in E. destruct E as [-> ->].
              specialize (Hb y ltac:(apply in_or_app; simpl; auto)).
              destruct S as [S1 S2]. apply in_app_or in S1. destruct S1 as [S1|[S1|S1]].
              ** specialize (Ha _ S1). specialize (S2 t ltac:(apply in_or_app; simpl; auto)). lia.
              ** subst. lia.
              ** specialize (S2 t ltac:(apply in_or_app; simpl; auto)). lia.
      * split.
        -- intros [= <-]. destruct (proj1 IH eq_refl) as (a & b & -> & Ha & Hb).
           exists a, (b ++ [x]). rewrite <- app_assoc. split; [reflexivity|]. split; auto.
           intros u Hu. apply in_app_or in Hu. destruct Hu as [Hu|[<-|[]]]; auto.
        -- intros (a & b & E & Ha & Hb). destruct b as [|y b] using rev_ind.
           ++ apply app_inj_tail in E. destruct E as [-> ->]. destruct S as [S1 S2].
              specialize (Ha _ S1). lia.
           ++ rewrite app_comm_cons, app_assoc in E. apply app_inj_tail in E. destruct E as [-> ->].
              apply IH. exists a, b. split; auto. split; auto. intros u Hu. apply Hb. apply in_or_app; auto.
    + subst l. split.
      * intros [= <-]. exists [], []. simpl. repeat split; intros ? [].
      * intros (a & b & E & _). destruct a as [|y a]; [|destruct a; discriminate].
        simpl in E. congruence.
Qed.

(** ** The set of zero-width rules applied at a position *)
Lemma subset_eqb_eq a b : subset_eqb a b = true <-> a = b.
Proof.
  destruct a as [[[i1 o1] l1] w1], b as [[[i2 o2] l2] w2]. unfold subset_eqb.
  rewrite !andb_true_iff, !str_eqb_eq, !Nat.eqb_eq. split.
  - intros (((-> & ->) & ->) & ->). reflexivity.
  - intros [= -> -> -> ->]. auto.
Qed.
Lemma was_seen_In seen t : was_seen seen t = true <-> In (subset_of t) seen.
Proof.
  unfold was_seen. rewrite existsb_exists. split.
  - intros (x & Hx & E). apply subset_eqb_eq in E. subst. exact Hx.
  - intros H. exists (subset_of t). split; [exact H|]. apply subset_eqb_eq. reflexivity.
Qed.
Lemma unseen_In seen l t : In t (unseen seen l) <-> In t l /\ ~ In (subset_of t) seen.
Proof.
  unfold unseen. rewrite filter_In, negb_true_iff, <- was_seen_In. destruct (was_seen seen t); intuition congruence.
Qed.
Lemma now_In l t : In t (now l) <-> In t l /\ r_offset t = 0.
Proof. unfold now, at_zero. rewrite filter_In, Nat.eqb_eq. reflexivity. Qed.
Lemma later_In l t : In t (later l) <-> In t l /\ r_offset t <> 0.
Proof. unfold later, at_zero. rewrite filter_In, negb_true_iff, Nat.eqb_neq. reflexivity. Qed.
Lemma update_offsets_In l d t : In t (update_offsets l d) <->
  exists u, In u l /\ d <= r_offset u /\ t = with_offset u (r_offset u - d).
Proof.
  unfold update_offsets, decrement_offset. rewrite in_map_iff. split.
  - intros (u & <- & Hu). apply filter_In in Hu. destruct Hu as [Hu H]. apply Nat.leb_le in H. eauto.
  - intros (u & Hu & H & ->). exists u. split; [reflexivity|]. apply filter_In. split; [exact Hu|]. apply Nat.leb_le, H.
Qed.

(** ** Pieces and the text they stand for *)
Section Like.
Variable lower : char -> list char.
(** the text of a piece: that of the input, up to case *)
Definition like : str -> str -> Prop := Forall2 (fun a x => a = x \/ lower a = [x]).
Lemma like_refl s : like s s.
Proof. induction s; constructor; auto. Qed.
(** a piece offered with an offset fits the remaining text *)
Definition fits_at (sim : str -> str -> Prop) (rest : str) (t : resolved) : Prop :=
  r_offset t + r_length t <= length rest /\ r_length t = length (r_input t) /\
  sim (firstn (r_length t) (skipn (r_offset t) rest)) (r_input t).
Definition sets_only (t : resolved) : Prop := Forall (fun f => exists s v, f = effect_new s v) (r_effects t).

Lemma fits_at_skip sim rest t d : d <= r_offset t -> fits_at sim rest t ->
  fits_at sim (skipn d rest) (with_offset t (r_offset t - d)).
Proof.
  intros Hd (H1 & H2 & H3). unfold fits_at. cbn [with_offset r_offset r_length r_input].
  rewrite skipn_length. split; [unfold char in *; lia|]. split; [exact H2|].
  replace (skipn (r_offset t - d) (skipn d rest)) with (skipn (r_offset t) rest); [exact H3|].
  clear -Hd. revert rest Hd. generalize (r_offset t) as o. intros o. revert o. induction d as [|d IH]; intros o rest Hd.
  - rewrite Nat.sub_0_r. reflexivity.
  - destruct o as [|o]; [lia|]. destruct rest as [|c rest]; simpl; [rewrite skipn_nil; reflexivity|].
    apply IH. lia.
Qed.
Lemma sets_only_apply t e : sets_only t -> exists e', env_apply_all e (r_effects t) = Ok e'.
Proof.
  unfold sets_only. intros H. revert e. induction H as [|f fs (s & v & ->) F IH]; intros e; simpl; eauto.
Qed.

(** ** Patterns *)
(** no bracket inside *)
Fixpoint no_capture (r : regexp) : bool :=
  match r with
  | RCapture _ => false
  | RConcat a b | REither a b => (no_capture a && no_capture b)%bool
  | ROptional a | RZeroOrMore a | ROneOrMore a | RRepeatExactly _ a | RRepeatAtLeast _ a
  | RRepeatAtLeastAtMost _ _ a | RGroup a => no_capture a
  | _ => true
  end.
Lemma no_capture_compiled r : no_capture r = true -> no_capture (as_compiled r) = true.
Proof.
  induction r; cbn [no_capture as_compiled]; intros H; auto; try discriminate.
  all: try (apply andb_prop in H; destruct H; rewrite IHr1, IHr2; auto; fail).
  rewrite IHr; auto.
Qed.
Lemma no_capture_negate r : forall r', negate r = Some r' -> no_capture r = true -> no_capture r' = true.
Proof.
  induction r; cbn [negate no_capture]; intros r' E H; try discriminate;
    try (injection E as <-; reflexivity);
    try (destruct (negate r) as [a'|]; [|discriminate]; injection E as <-; cbn [no_capture]; auto; fail);
    apply andb_prop in H; destruct H as [H1 H2];
    (destruct (negate r1) as [a'|]; [|discriminate]); (destruct (negate r2) as [b'|]; [|discriminate]);
    injection E as <-; cbn [no_capture]; rewrite IHr1, IHr2; auto.
Qed.
Section MatKeeps.
Variable env : N -> option N.
Variable at_start : bool.
Variable input : str.
Notation Mat := (Mat lower env at_start input).
Lemma Mat_keeps_iter a (IH : forall i c j c', Mat a i c j c' -> c' = c) :
  forall n i c j c', Mat (RRepeatExactly n a) i c j c' -> c' = c.
Proof.
  induction n as [|n IHn]; intros i c j c' H; inversion H; subst; auto.
  match goal with H1 : Mat a _ _ _ _ , H2 : Mat (RRepeatExactly _ _) _ _ _ _ |- _ => apply IH in H1; apply IHn in H2; congruence end.
Qed.
Lemma Mat_keeps r : no_capture r = true -> forall i c j c', Mat r i c j c' -> c' = c.
Proof.
  induction r; cbn [no_capture]; intros HN i c0 j c0' H; try discriminate;
    try (apply andb_prop in HN; destruct HN as [HN1 HN2]);
    try (exact (Mat_keeps_iter r (IHr HN) _ _ _ _ _ H));
    inversion H; subst; eauto;
    try (match goal with H1 : Mat (RRepeatExactly _ _) _ _ _ _ |- _ => exact (Mat_keeps_iter r (IHr HN) _ _ _ _ _ H1) end).
  match goal with H1 : Mat r1 _ _ _ _ , H2 : Mat r2 _ _ _ _ |- _ => apply (IHr1 HN1) in H1; apply (IHr2 HN2) in H2; congruence end.
Qed.
End MatKeeps.
Lemma no_capture_concat_left rs : forall r, no_capture r = true -> forallb no_capture rs = true ->
  no_capture (concat_left r rs) = true.
Proof.
  induction rs as [|x rs IH]; cbn [concat_left forallb]; intros r H H2; auto.
  apply andb_prop in H2. destruct H2. apply IH; auto. cbn [no_capture]. apply andb_true_intro. auto.
Qed.
Lemma no_capture_anchor s : no_capture (boundary_anchor s) = true.
Proof. destruct s; reflexivity. Qed.
Lemma no_capture_list (ctx : classes) ps :
  Forall (fun p => forall r, re_of_pattern ctx p = Some r -> no_capture r = true) ps ->
  forall r, re_of_patterns ctx ps = Some r -> no_capture r = true.
Proof.
  intros F. unfold re_of_patterns. 
  assert (X : forall l, re_of_pattern_list ctx ps = Some l -> forallb no_capture l = true).
  { induction F as [|p ps Hp F IH]; cbn [re_of_pattern_list]; intros l E.
    - injection E as <-. reflexivity.
    - destruct (re_of_pattern ctx p) as [a|] eqn:Ea; [|discriminate].
      destruct (re_of_pattern_list ctx ps) as [b|]; [|discriminate]. injection E as <-.
      cbn [forallb]. rewrite (Hp a eq_refl), (IH b eq_refl). reflexivity. }
  destruct (re_of_pattern_list ctx ps) as [[|a l]|]; cbn [opt_bind concat_nonempty]; intros r E; try discriminate.
  injection E as <-. specialize (X _ eq_refl). cbn [forallb] in X. apply andb_prop in X. destruct X.
  apply no_capture_concat_left; auto.
Qed.
(** what a compiled context, correct or pass rule looks like *)
Definition rule_pattern (p : cpat) : Prop :=
  exists u, cp_payload p = Unresolved u /\ u_origin u <> None /\
    Forall (fun f => exists s v, f = effect_new s v) (u_effects u).
(** what a compiled match rule looks like *)
Definition match_pattern (p : cpat) : Prop :=
  exists a b chars t, cp_re p = RConcat (RConcat a (RCapture (RCIString chars))) b /\
    no_capture b = true /\ cp_payload p = Resolved t /\ r_input t = chars /\ r_length t = length chars /\ r_effects t = [] /\
    r_origin t <> None.
(** the output for an empty replaced text *)
Definition zero_output (p : cpat) : str :=
  match cp_payload p with
  | Resolved t => r_output t
  | Unresolved u => flat_map (fun t => match t with TLiteral s => s | _ => [] end) (u_output u)
  end.
Definition universe (n : nat) (ps : list cpat) : list subset :=
  flat_map (fun p => map (fun w => ([], zero_output p, 0, w)) (List.seq 0 (S n))) ps.
Lemma universe_length n ps : length (universe n ps) = length ps * S n.
Proof.
  unfold universe. induction ps as [|p ps IH]; cbn [flat_map length]; [reflexivity|].
  rewrite app_length, map_length, seq_length, Nat.mul_succ_l, Nat.add_comm. f_equal. exact IH.
Qed.
(** an offer of a list of patterns, for a text of at most [n] characters *)
Definition offered (sim : str -> str -> Prop) (n : nat) (ps : list cpat) (rest : str) (t : resolved) : Prop :=
  fits_at sim rest t /\ sets_only t /\ r_origin t <> None /\
  (r_length t = 0 -> In (subset_of t) (universe n ps)).

Lemma rule_pattern_find p e at_start rest n : rule_pattern p -> length rest <= n ->
  exists o, cpat_find lower p e at_start rest = Ok o /\
    forall t, o = Some t -> offered eq n [p] rest t.
Proof.
  intros (u & Eu & Ho & He) Hn.
  destruct (find_spec lower (env_get e) at_start (cp_re p) rest) as (o & Eo & H).
  unfold cpat_find. rewrite Eo. destruct o as [f|]; cbn [bind].
  2:{ exists None. split; [reflexivity|]. intros t [=]. }
  destruct H as (j & s & en & _ & H1 & H2 & H3 & ->). rewrite Eu. cbn [translation_resolve report f_capture f_length f_offset].
  destruct (unresolved_resolve_ok u (firstn (en - s) (skipn s rest)) j s)
    as (t & Et & Q1 & Q2 & Q3 & Q4 & Q5 & Q6 & Q7 & Q8 & Q9).
  rewrite Et. cbn [bind]. eexists. split; [reflexivity|]. intros t' [= <-].
  assert (L : length (firstn (en - s) (skipn s rest)) = en - s).
  { rewrite firstn_length, skipn_length. unfold char in *. lia. }
  unfold char in L. rewrite L in Q2.
  split; [|split; [|split]].
  - unfold fits_at. rewrite Q1, Q2, Q4, L. unfold char in *. repeat split; lia.
  - unfold sets_only. rewrite Q5. exact He.
  - congruence.
  - intros Z. rewrite Z in Q2. unfold universe. cbn [flat_map]. apply in_or_app. left. apply in_map_iff.
    exists j. split; [|apply in_seq; unfold char in *; lia]. unfold subset_of. rewrite Q1, Q3, Q9, Z.
    assert (E0 : en - s = 0) by lia. rewrite E0. cbn [firstn].
    unfold zero_output. rewrite Eu.
    match goal with |- (?x, ?a, ?y, ?z) = (?x, ?b, ?y, ?z) => assert (EE : a = b); [|rewrite EE; reflexivity] end.
    clear. induction (u_output u) as [|x l IH]; cbn [flat_map]; [reflexivity|]. rewrite IH. destruct x; reflexivity.
Qed.


Lemma stands_ci_like rest chars i : stands_ci lower rest chars i ->
  like (firstn (length chars) (skipn i rest)) chars.
Proof.
  unfold stands_ci, like. revert i. induction chars as [|x chars IH]; intros i H; cbn [length firstn]; [constructor|].
  destruct (H 0 x eq_refl) as (a & Ha & E). rewrite Nat.add_0_r in Ha.
  assert (Sk : skipn i rest = a :: skipn (S i) rest).
  { clear -Ha. revert i Ha. induction rest as [|y rest IH]; intros [|i] Ha; try discriminate.
    - injection Ha as ->. reflexivity.
    - simpl in Ha. apply IH in Ha. exact Ha. }
  rewrite Sk. cbn [firstn]. constructor; [auto|]. apply (IH (S i)). intros k y Hk.
  destruct (H (S k) y Hk) as (b & Hb & E'). exists b. split; [|exact E']. rewrite <- Hb. f_equal. lia.
Qed.
Lemma match_pattern_find p e at_start rest n : match_pattern p -> length rest <= n ->
  exists o, cpat_find lower p e at_start rest = Ok o /\
    forall t, o = Some t -> offered like n [p] rest t.
Proof.
  intros (a & b & chars & t0 & Er & Nb & Ep & I1 & I2 & I3 & I4) Hn.
  destruct (find_spec lower (env_get e) at_start (cp_re p) rest) as (o & Eo & H).
  unfold cpat_find. rewrite Eo. destruct o as [f|]; cbn [bind].
  2:{ exists None. split; [reflexivity|]. intros t [=]. }
  destruct H as (j & s & en & M & H1 & H2 & H3 & ->). rewrite Ep.
  cbn [translation_resolve report f_capture f_length f_offset bind].
  eexists. split; [reflexivity|]. intros t [= <-].
  rewrite Er in M. cbn [as_compiled] in M.
  inversion M as [ | | | | | | |a1 b1 i1 c1 k1 d1 j1 c1' M1 M2| | | | | | | | | | | | | | | | | | | ]; subst a1 b1 i1 c1 j1 c1'.
  inversion M1 as [ | | | | | | |a2 b2 i2 c2 k2 d2 j2 c2' M3 M4| | | | | | | | | | | | | | | | | | | ]; subst a2 b2 i2 c2 j2 c2'.
  inversion M4 as [ | | | | | | | | | | | | | | | | | |a3 i3 c3 j3 d3 M5| | | | | | | | ]; subst a3 i3 c3 j3.
  apply cistring_Mat in M5. destruct M5 as (E5 & E6 & ST).
  subst d3. cbn [fst] in *. subst d1. apply (Mat_keeps _ _ _ _ (no_capture_compiled _ Nb)) in M2. injection M2 as E7 E8. subst s en k1.
  cbn [with_offset with_weight r_offset r_length r_input r_effects r_origin].
  split; [|split; [|split]].
  - unfold fits_at. cbn [with_offset with_weight r_offset r_length r_input]. rewrite I1, I2. unfold char in *.
    split; [lia|]. split; [reflexivity|]. apply stands_ci_like, ST.
  - unfold sets_only. cbn [with_offset with_weight r_effects]. rewrite I3. constructor.
  - exact I4.
  - cbn [with_offset with_weight r_length]. intros Z. unfold universe. cbn [flat_map]. apply in_or_app. left. apply in_map_iff.
    exists j. split; [|apply in_seq; unfold char in *; lia]. unfold subset_of, zero_output. rewrite Ep.
    cbn [with_offset with_weight r_input r_output r_length r_weight]. rewrite Z, I1.
    destruct chars; [reflexivity|simpl in I2; lia].
Qed.

(** ** Lists of patterns *)
Lemma universe_app n a b : universe n (a ++ b) = universe n a ++ universe n b.
Proof. unfold universe. apply flat_map_app. Qed.
Lemma offered_incl sim n ps qs rest t : incl ps qs -> offered sim n ps rest t -> offered sim n qs rest t.
Proof.
  intros H (A & B & C & D). repeat split; auto; try apply A. intros Z. specialize (D Z). unfold universe in *.
  apply in_flat_map in D. destruct D as (q & Hq & D). apply in_flat_map. eauto.
Qed.
Lemma offered_mono (sim sim' : str -> str -> Prop) n ps rest t : (forall a b, sim a b -> sim' a b) ->
  offered sim n ps rest t -> offered sim' n ps rest t.
Proof. intros H ((A & B & C) & D). split; [|exact D]. split; [exact A|]. split; auto. Qed.
Lemma cpats_find_offered sim (ok : cpat -> Prop) n e at_start rest :
  (forall p, ok p -> exists o, cpat_find lower p e at_start rest = Ok o /\
     forall t, o = Some t -> offered sim n [p] rest t) ->
  forall ps, Forall ok ps -> exists l, cpats_find lower ps e at_start rest = Ok l /\
     Forall (offered sim n ps rest) l.
Proof.
  intros H ps F. induction F as [|p ps Hp F (l & El & Fl)]; cbn [cpats_find].
  - exists []. auto.
  - destruct (H p Hp) as (o & Eo & Ho). rewrite Eo, El. cbn [bind]. eexists. split; [reflexivity|].
    assert (Fl' : Forall (offered sim n (p :: ps) rest) l).
    { eapply Forall_impl; [|exact Fl]. intros t. apply offered_incl. intros x Hx. right. exact Hx. }
    destruct o as [t|]; [|exact Fl']. constructor; [|exact Fl'].
    eapply offered_incl; [|apply Ho; reflexivity]. intros x [<-|[]]. left. reflexivity.
Qed.
Lemma offered_skip sim n ps rest t d : d <= r_offset t -> offered sim n ps rest t ->
  offered sim n ps (skipn d rest) (with_offset t (r_offset t - d)).
Proof.
  intros Hd (A & B & C & D). split; [apply fits_at_skip; auto|]. split; [exact B|]. split; [exact C|]. exact D.
Qed.
Lemma offered_update sim n ps rest l d : Forall (offered sim n ps rest) l ->
  Forall (offered sim n ps (skipn d rest)) (update_offsets l d).
Proof.
  rewrite !Forall_forall. intros H t Ht. apply update_offsets_In in Ht. destruct Ht as (u & Hu & Hd & ->).
  apply offered_skip; auto.
Qed.
End Like.
