(** From the steps of a derivation to the pieces of a trace. *)
From Coq Require Import Permutation.
From Verif Require Import Base BaseProofs RuleModel TranslationModel TranslationProofs TableModel RegexpModel
  RegexpSpec PatternModel MatchProofs TrieModel TrieProofs PropTrie
  HyphenationModel HyphenationProofs LoopModel LoopProofs MultipassProofs PrimaryProofs PrimaryTrace CompileModel CompileSpec
  CompileProofs MainTable ConstraintModel ConstraintSpec ConstraintProofs IndicatorModel IndicatorProofs
  CapsSpec CapsProofs CapsFacts EmphSpec EmphProofs MainSpec StepProofs TraceSpec MainPass StepFacts.

Lemma position_app a b : position (a ++ b) = position a + position b.
Proof. unfold position. rewrite map_app, list_sum_app. reflexivity. Qed.

Section Written.
Variable upper : char -> list char.
Variable d : direction.
Variable limits : pos_flags.
Variable ind : list (list resolved).
Notation written := (written upper d limits ind).
Notation shown := (shown upper d limits).
(** the pieces of the steps *)
Fixpoint show_all (pos : nat) (ts : list step) : list resolved :=
  match ts with
  | [] => []
  | x :: r => shown pos x :: show_all (pos + r_length (snd x)) r
  end.
Hypothesis SIGNS : forall p t, In t (nth p ind []) -> is_sign t = true.
Lemma text_pieces_app a b : text_pieces (a ++ b) = text_pieces a ++ text_pieces b.
Proof. apply filter_app. Qed.
Lemma text_pieces_signs p : text_pieces (nth p ind []) = [].
Proof.
  unfold text_pieces. generalize (SIGNS p). generalize (nth p ind []) as l. induction l as [|t l IH]; intros H; [reflexivity|].
  cbn [filter]. rewrite (H t (or_introl eq_refl)). apply IH. intros u Hu. apply H. right. exact Hu.
Qed.
Lemma written_text ts : (forall pos x, In x ts -> is_sign (shown pos x) = false) ->
  forall pos first, text_pieces (written pos first ts) = show_all pos ts.
Proof.
  induction ts as [|x r IH]; intros NS pos first; cbn [MainSpec.written show_all]; rewrite text_pieces_app.
  - destruct first; [rewrite text_pieces_signs|]; reflexivity.
  - replace (text_pieces (if first then nth pos ind [] else [])) with (@nil resolved) by (destruct first; [rewrite text_pieces_signs|]; reflexivity).
    cbn [app]. unfold text_pieces at 1. cbn [filter]. rewrite (NS pos x (or_introl eq_refl)). cbn [negb]. f_equal.
    apply IH. intros q y Hy. apply NS. right. exact Hy.
Qed.
(** the positions reached *)
Fixpoint stops (pos : nat) (ts : list step) : list nat :=
  pos :: match ts with [] => [] | x :: r => stops (pos + r_length (snd x)) r end.
Lemma stops_ge ts : forall pos p, In p (stops pos ts) -> pos <= p.
Proof.
  induction ts as [|x r IH]; intros pos p; cbn [stops]; [intros [<-|[]]; lia|]. intros [<-|H]; [lia|]. apply IH in H. lia.
Qed.
Lemma stops_spec ts : forall pos p, In p (stops pos ts) <-> exists a b, ts = a ++ b /\ p = pos + reached a.
Proof.
  induction ts as [|x r IH]; intros pos p; cbn [stops].
  - split; [intros [<-|[]]; exists [], []; split; [reflexivity|cbn; lia]|]. intros (a & b & E & ->). symmetry in E. apply app_eq_nil in E.
    destruct E as [-> _]. left. cbn. lia.
  - cbn [In]. rewrite IH. split.
    + intros [<-|(a & b & -> & ->)]; [exists [], (x :: r); split; [reflexivity|cbn; lia]|]. exists (x :: a), b. rewrite reached_cons. split; [reflexivity|lia].
    + intros ([|y a] & b & E & ->); [left; cbn; lia|]. injection E as <- ->. right. exists a, b. rewrite reached_cons. split; [reflexivity|lia].
Qed.
Lemma signs_from_app a : forall pos p b, signs_from pos p (a ++ b) = signs_from pos p a ++ signs_from (pos + position a) p b.
Proof.
  induction a as [|t a IH]; intros pos p b; cbn [app signs_from].
  - unfold position. cbn. rewrite Nat.add_0_r. reflexivity.
  - rewrite IH, <- app_assoc. unfold position. cbn [map list_sum fold_right]. rewrite Nat.add_assoc. reflexivity.
Qed.
Lemma signs_from_signs l : (forall t, In t l -> is_sign t = true) -> forall pos p, signs_from pos p l = if Nat.eqb pos p then l else [].
Proof.
  induction l as [|t l IH]; intros H pos p; cbn [signs_from]; [destruct (Nat.eqb pos p); reflexivity|].
  pose proof (H t (or_introl eq_refl)) as Ht. rewrite Ht. assert (L : r_length t = 0).
  { unfold is_sign in Ht. apply andb_true_iff in Ht. apply Nat.eqb_eq, Ht. }
  rewrite L, Nat.add_0_r, IH by (intros u Hu; apply H; right; exact Hu). rewrite andb_true_r. destruct (Nat.eqb pos p); reflexivity.
Qed.
Lemma position_signs l : (forall t, In t l -> is_sign t = true) -> position l = 0.
Proof.
  induction l as [|t l IH]; intros H; [reflexivity|]. unfold position in *. cbn [map list_sum fold_right] in *.
  change (fold_right Nat.add 0 (map r_length l)) with (list_sum (map r_length l)) in *. rewrite IH by (intros u Hu; apply H; right; exact Hu).
  pose proof (H t (or_introl eq_refl)) as Ht. unfold is_sign in Ht. apply andb_true_iff in Ht. destruct Ht as [Ht _]. apply Nat.eqb_eq in Ht. lia.
Qed.
Lemma written_signs ts : (forall pos x, In x ts -> is_sign (shown pos x) = false) -> forall pos first p,
  signs_from pos p (written pos first ts) =
  if (existsb (Nat.eqb p) (stops pos ts) && (first || negb (Nat.eqb p pos)))%bool then nth p ind [] else [].
Proof.
  induction ts as [|x r IH]; intros NS pos first p; cbn [MainSpec.written stops existsb]; rewrite signs_from_app.
  - rewrite orb_false_r, app_nil_r. destruct first.
    + rewrite signs_from_signs by apply SIGNS. cbn [orb andb]. rewrite Nat.eqb_sym. destruct (Nat.eqb_spec p pos) as [-> |]; reflexivity.
    + cbn [signs_from orb]. destruct (Nat.eqb p pos); reflexivity.
  - cbn [signs_from]. rewrite (NS _ x (or_introl eq_refl)), andb_false_r. cbn [app].
    replace (position (if first then nth pos ind [] else [])) with 0 by (destruct first; [symmetry; apply position_signs, SIGNS|reflexivity]).
    rewrite Nat.add_0_r. destruct (shown_fields upper d limits pos x) as (-> & _).
    rewrite IH by (intros q y Hy; apply NS; right; exact Hy).
    assert (F : signs_from pos p (if first then nth pos ind [] else []) = if (first && Nat.eqb p pos)%bool then nth p ind [] else []).
    { destruct first; [|reflexivity]. rewrite signs_from_signs by apply SIGNS. cbn [andb]. rewrite Nat.eqb_sym.
      destruct (Nat.eqb_spec p pos) as [-> |]; reflexivity. }
    rewrite F. clear F. destruct (Nat.eqb_spec p pos) as [EQ|NE]; [subst p|].
    + cbn [orb negb andb]. rewrite orb_false_r, andb_true_r.
      destruct (Nat.ltb_spec 0 (r_length (snd x))) as [L|L]; cbn [orb andb].
      * rewrite andb_true_r. replace (existsb (Nat.eqb pos) (stops (pos + r_length (snd x)) r)) with false; [destruct first; rewrite ?app_nil_r; reflexivity|].
        symmetry. destruct (existsb _ _) eqn:E; [|reflexivity]. apply existsb_exists in E. destruct E as (q & Hq & Eq). apply Nat.eqb_eq in Eq. subst q.
        apply stops_ge in Hq. lia.
      * replace (pos + r_length (snd x)) with pos by lia. rewrite Nat.eqb_refl, andb_false_r. destruct first; rewrite ?app_nil_r; reflexivity.
    + rewrite andb_false_r. cbn [app orb negb]. rewrite orb_true_r, andb_true_r.
      destruct (Nat.ltb_spec 0 (r_length (snd x))) as [L|L]; cbn [orb]; [rewrite andb_true_r; reflexivity|].
      replace (pos + r_length (snd x)) with pos by lia. destruct (Nat.eqb_spec p pos); [contradiction|]. rewrite andb_true_r. reflexivity.
Qed.
Lemma written_step_at ts1 y ts2 : forall pos first, exists a b,
  written pos first (ts1 ++ y :: ts2) = a ++ shown (pos + reached ts1) y :: b /\ position a = reached ts1.
Proof.
  assert (Z : forall pos (first : bool), position (if first then nth pos ind [] else []) = 0).
  { intros pos first. destruct first; [apply position_signs, SIGNS|reflexivity]. }
  induction ts1 as [|z ts1 IH]; intros pos first; cbn [app MainSpec.written].
  - rewrite Nat.add_0_r. eexists _, _. split; [reflexivity|]. apply Z.
  - rewrite reached_cons, Nat.add_assoc. destruct (IH (pos + r_length (snd z)) (Nat.ltb 0 (r_length (snd z)))) as (a & b & -> & P).
    eexists (_ ++ _ :: a), b. rewrite <- app_assoc. split; [reflexivity|]. rewrite position_app, Z. unfold position in *. cbn [map list_sum fold_right].
    change (fold_right Nat.add 0 (map r_length a)) with (list_sum (map r_length a)). rewrite P. destruct (shown_fields upper d limits pos z) as (-> & _). reflexivity.
Qed.
(** signs stand before the text of their position *)
Lemma written_later ts : (forall pos x, In x ts -> is_sign (shown pos x) = false) -> forall pos a t b,
  written pos false ts = a ++ t :: b -> is_sign t = true -> 0 < position a.
Proof.
  induction ts as [|x r IH]; intros NS pos a t b; cbn [MainSpec.written app]; [intros E; destruct a; discriminate|].
  destruct a as [|u a]; cbn [app]; intros E S.
  - injection E as <- _. rewrite (NS pos x (or_introl eq_refl)) in S. discriminate.
  - injection E as <- E. unfold position. cbn [map list_sum fold_right]. destruct (shown_fields upper d limits pos x) as (-> & _).
    destruct (Nat.ltb_spec 0 (r_length (snd x))) as [L|L]; [lia|].
    assert (P : 0 < position a); [|unfold position in P; unfold list_sum in P; lia].
    eapply IH; [intros q y Hy; apply NS; right; exact Hy|exact E|exact S].
Qed.
Lemma written_first ts : (forall pos x, In x ts -> is_sign (shown pos x) = false) -> forall pos first a t b a1 t' a2,
  written pos first ts = a ++ t :: b -> is_sign t = true -> a = a1 ++ t' :: a2 -> is_sign t' = false -> position a1 < position a.
Proof.
  induction ts as [|x r IH]; intros NS pos first a t b a1 t' a2; cbn [MainSpec.written]; intros E S Ea S'.
  - exfalso. rewrite app_nil_r in E. assert (X : is_sign t' = true); [|congruence]. destruct first; [|destruct a; discriminate]. apply (SIGNS pos).
    rewrite E, Ea. apply in_or_app. left. apply in_or_app. right. left. reflexivity.
  - set (pre := if first then nth pos ind [] else []) in *. assert (PS : forall u, In u pre -> is_sign u = true) by (unfold pre; destruct first; [apply SIGNS|intros u []]).
    destruct (app_split _ _ _ _ _ E) as [(b' & E1 & _)|(a' & Ea' & E2)].
    + exfalso. assert (X : is_sign t' = true); [|congruence]. apply PS. rewrite E1, Ea. apply in_or_app. left. apply in_or_app. right. left. reflexivity.
    + rewrite Ea' in Ea. destruct (app_split _ _ _ _ _ Ea) as [(b' & E1 & _)|(a3 & -> & E3)].
      { exfalso. assert (X : is_sign t' = true); [|congruence]. apply PS. rewrite E1. apply in_or_app. right. left. reflexivity. }
      subst a. rewrite !position_app. apply Nat.add_lt_mono_l.
      destruct a' as [|u a']; [destruct a3; discriminate|]. cbn [app] in E2. injection E2 as Eu E2. subst u.
      destruct a3 as [|u a3]; cbn [app] in E3; injection E3 as <- E3.
      * unfold position at 1. cbn. unfold position. cbn [map list_sum fold_right]. destruct (shown_fields upper d limits pos x) as (-> & _).
        destruct (Nat.ltb_spec 0 (r_length (snd x))) as [L|L]; [lia|].
        assert (P : 0 < position a'); [|unfold position in P; unfold list_sum in P; lia].
        eapply written_later; [intros q y Hy; apply NS; right; exact Hy|exact E2|exact S].
      * assert (P : position a3 < position a').
        { eapply IH; [intros q y Hy; apply NS; right; exact Hy|exact E2|exact S|exact E3|exact S']. }
        unfold position in *. cbn [map list_sum fold_right]. unfold list_sum in P. lia.
Qed.
End Written.

Section Trace.
Variable is_alphabetic : char -> bool.
Variable compat : bool.
Variable read_dictionary : str -> tres hyph.
Variable d : direction.
Variable x : context.
Variable rules : list rule.
Variable lower upper : char -> list char.
Variable sort : list event -> res (list event).
Variable m : main_table.
Hypothesis B : main_built is_alphabetic compat read_dictionary d x rules m.
Variable input : str.
Variable spans sp : list span.
Variable em caps : list placed.
Variable ind : list (list resolved).
Variable lim : pos_flags.
Variable ts : list step.
Variable out : list resolved.
Hypothesis T : traced is_alphabetic compat read_dictionary d x rules lower upper sort m input spans sp em caps ind lim ts out.
Notation src := (rule_sources compat d x rules lower).
Notation best := (best src d lim input).

Lemma sign_rule t : rule_sign rules t -> is_sign t = true.
Proof. intros (r & dots & _ & K & ->). unfold is_sign. cbn. destruct r; try discriminate K; reflexivity. Qed.
Lemma ind_signs p t : In t (nth p ind []) -> is_sign t = true.
Proof.
  intros H. apply sign_rule. destruct (nth_in_or_default p ind []) as [I|E]; [eapply (tc_signs _ _ _ _ _ _ _ _ _ _ _ _ _ _ _ _ _ _ _ T); eauto|].
  rewrite E in H. destruct H.
Qed.
Lemma step_at a y b : ts = a ++ y :: b -> best a y /\ reached a <= length input /\ stands_at lower input (reached a) (snd y).
Proof.
  intros E. pose proof (tc_steps _ _ _ _ _ _ _ _ _ _ _ _ _ _ _ _ _ _ _ T) as D. pose proof (mb_rules _ _ _ _ _ _ _ B) as C.
  pose proof (derivation_split _ _ _ _ _ D a y b E) as H1. split; [exact H1|].
  split; [|eapply derivation_stands; eauto]. eapply derivation_inside; [exact C|]. rewrite E in D. eapply derivation_prefix, D.
Qed.
Lemma step_not_sign pos y : In y ts -> is_sign (shown upper d lim pos y) = false.
Proof.
  intros H. apply in_split in H. destruct H as (a & b & E). destruct (step_at a y b E) as (H1 & H2 & _).
  destruct (shown_fields upper d lim pos y) as (L & _ & O & _). unfold is_sign. rewrite L, O.
  destruct (step_facts compat read_dictionary d x rules lower _ (mb_rules _ _ _ _ _ _ _ B) lim input a y H2 H1) as [_ F]. destruct y as [[| |] t]; cbn [fst snd] in *.
  - destruct F as [F _]. destruct (Nat.eqb_spec (r_length t) 0); [lia|reflexivity].
  - destruct F as (r & _ & -> & _ & _ & F1 & F2). destruct F2 as [F2|[F2|F2]].
    + destruct (Nat.eqb_spec (r_length t) 0); [specialize (F1 (or_introl F2)); lia|reflexivity].
    + destruct (Nat.eqb_spec (r_length t) 0); [specialize (F1 (or_intror F2)); lia|reflexivity].
    + rewrite andb_comm. destruct F2 as [F2|F2]; destruct r; try discriminate; reflexivity.
  - destruct F as [F _]. rewrite F. reflexivity.
Qed.
Lemma out_lengths t : In t out -> r_length t = length (r_input t).
Proof.
  destruct (tc_cover _ _ _ _ _ _ _ _ _ _ _ _ _ _ _ _ _ _ _ T) as (segs & _ & F). clear T.
  induction F as [|s u l l' H F IH]; intros H2; [destruct H2|destruct H2 as [<-|H2]; [apply H|auto]].
Qed.
Lemma prefix_position a b : out = a ++ b -> position a = total a.
Proof.
  intros E. assert (L : forall t, In t a -> r_length t = length (r_input t)).
  { intros t Ht. apply out_lengths. rewrite E. apply in_or_app. auto. }
  clear E. unfold position, total. induction a as [|t a IH]; [reflexivity|]. cbn [map list_sum fold_right flat_map]. rewrite app_length.
  rewrite (L t (or_introl eq_refl)). f_equal. apply IH. intros u Hu. apply L. right. exact Hu.
Qed.
(** a piece is a sign, or that of a step *)
Lemma piece a t b : out = a ++ t :: b ->
  (is_sign t = true /\ In t (nth (position a) ind []) /\ rule_sign rules t) \/
  (is_sign t = false /\ exists ts1 y ts2, ts = ts1 ++ y :: ts2 /\ reached ts1 = position a /\ best ts1 y /\
     t = shown upper d lim (position a) y /\ show_all upper d lim 0 ts1 = text_pieces a).
Proof.
  intros E. rewrite (prefix_position a (t :: b) E).
  assert (W : text_pieces out = show_all upper d lim 0 ts).
  { rewrite (tc_out _ _ _ _ _ _ _ _ _ _ _ _ _ _ _ _ _ _ _ T). apply written_text; [apply ind_signs|apply step_not_sign]. }
  destruct (is_sign t) eqn:S; [left|right]; (split; [reflexivity|]).
  - pose proof (tc_out _ _ _ _ _ _ _ _ _ _ _ _ _ _ _ _ _ _ _ T) as EO. rewrite E in EO. symmetry in EO.
    assert (NI : forall l u, In l ind -> In u l -> r_input u = []).
    { intros l u H1 H2. eapply rule_sign_fields, (tc_signs _ _ _ _ _ _ _ _ _ _ _ _ _ _ _ _ _ _ _ T); eauto. }
    assert (LEN : forall y, In y ts -> r_length (snd y) = length (r_input (snd y))).
    { intros y Hy. eapply derivation_lengths; [apply (mb_rules _ _ _ _ _ _ _ B)|apply (tc_steps _ _ _ _ _ _ _ _ _ _ _ _ _ _ _ _ _ _ _ T)|exact Hy]. }
    destruct (written_split upper d lim ind ts NI LEN _ _ _ _ _ EO) as [(ts1 & y & ts2 & Ets & Et & Ea)|(ts1 & ts2 & l1 & l2 & Ets & En & Ea & _)].
    + rewrite Et, step_not_sign in S; [discriminate|]. rewrite Ets. apply in_or_app. right. left. reflexivity.
    + cbn [plus] in En. rewrite Ea, En. assert (I : In t (nth (reached ts1) ind [])) by (rewrite En; apply in_or_app; right; left; reflexivity).
      split; [rewrite <- En; exact I|]. destruct (nth_in_or_default (reached ts1) ind []) as [H|H]; [eapply (tc_signs _ _ _ _ _ _ _ _ _ _ _ _ _ _ _ _ _ _ _ T); eauto|].
      rewrite H in I. destruct I.
  - rewrite E, text_pieces_app in W. unfold text_pieces at 2 in W. cbn [filter] in W. rewrite S in W. cbn [negb] in W.
    assert (G : forall l pos u v w, show_all upper d lim pos l = u ++ v :: w -> exists l1 y l2, l = l1 ++ y :: l2 /\
       show_all upper d lim pos l1 = u /\ v = shown upper d lim (pos + reached l1) y).
    { induction l as [|z l IH]; intros pos u v w; cbn [show_all]; [destruct u; discriminate|]. destruct u as [|u0 u]; cbn [app].
      - intros [= <- _]. exists [], z, l. cbn [app show_all]. unfold reached. cbn. rewrite Nat.add_0_r. auto.
      - intros [= <- H]. apply IH in H. destruct H as (l1 & y & l2 & -> & <- & ->). exists (z :: l1), y, l2. cbn [app show_all].
        rewrite reached_cons, Nat.add_assoc. auto. }
    symmetry in W. apply G in W. destruct W as (ts1 & y & ts2 & Ets & Esh & ->).
    cbn [plus] in *. exists ts1, y, ts2. split; [exact Ets|].
    assert (R : reached ts1 = total a).
    { rewrite <- (prefix_position a _ E).
      assert (P1 : forall l pos, position (show_all upper d lim pos l) = reached l).
      { induction l as [|z l IH]; intros pos; [reflexivity|]. unfold position. cbn [show_all map list_sum fold_right].
        change (fold_right Nat.add 0 (map r_length (show_all upper d lim (pos + r_length (snd z)) l))) with (position (show_all upper d lim (pos + r_length (snd z)) l)).
        rewrite IH, reached_cons. destruct (shown_fields upper d lim pos z) as (-> & _). reflexivity. }
      rewrite <- (P1 ts1 0), Esh. clear. induction a as [|u a IH]; [reflexivity|]. unfold text_pieces. cbn [filter].
      destruct (is_sign u) eqn:S; cbn [negb]; unfold position in *; cbn [map list_sum fold_right] in *; [|f_equal; exact IH].
      unfold is_sign in S. apply andb_true_iff in S. destruct S as [S _]. apply Nat.eqb_eq in S. rewrite S. exact IH. }
    split; [exact R|]. split; [eapply step_at, Ets|]. rewrite R. auto.
Qed.
Lemma boundary_stops p : boundary out p <-> In p (stops 0 ts).
Proof.
  rewrite stops_spec. split.
  - intros (a & b & E & <-).
    assert (G : forall l, (exists q, out = l ++ q) -> exists u v, ts = u ++ v /\ position l = reached u).
    { induction l as [|t l IH] using rev_ind; intros (q & E').
      - exists [], ts. split; reflexivity.
      - rewrite <- app_assoc in E'. cbn [app] in E'. destruct (piece l t q E') as [(S & _)|(S & ts1 & y & ts2 & Ets & R & _ & Et & _)].
        + destruct IH as (u & v & Eu & P); [eauto|]. exists u, v. split; [exact Eu|]. rewrite position_app, P.
          unfold position. cbn. unfold is_sign in S. apply andb_true_iff in S. destruct S as [S _]. apply Nat.eqb_eq in S. lia.
        + exists (ts1 ++ [y]), ts2. rewrite <- app_assoc. split; [exact Ets|]. rewrite position_app, reached_app, reached_one, R.
          unfold position at 2. cbn. destruct (shown_fields upper d lim (position l) y) as (L & _). rewrite Et, L. lia. }
    destruct (G a (ex_intro _ b E)) as (u & v & Eu & P). exists u, v. auto.
  - intros (u & v & E & ->). cbn [plus]. destruct v as [|y v].
    + exists out, []. rewrite app_nil_r. split; [reflexivity|]. rewrite (prefix_position out []) by (rewrite app_nil_r; reflexivity).
      rewrite app_nil_r in E. subst u. rewrite <- (cover_total lower input out (tc_cover _ _ _ _ _ _ _ _ _ _ _ _ _ _ _ _ _ _ _ T)).
      destruct (tc_end _ _ _ _ _ _ _ _ _ _ _ _ _ _ _ _ _ _ _ T) as [E _]. symmetry. exact E.
    + pose proof (tc_out _ _ _ _ _ _ _ _ _ _ _ _ _ _ _ _ _ _ _ T) as EO. rewrite E in EO.
      destruct (written_step_at upper d lim ind ind_signs u y v 0 true) as (a & b & Ea & P). rewrite Ea in EO.
      exists a, (shown upper d lim (0 + reached u) y :: b). auto.
Qed.
Lemma signs_at_positions p : signs_put out p = if existsb (Nat.eqb p) (stops 0 ts) then nth p ind [] else [].
Proof.
  unfold signs_put. rewrite (tc_out _ _ _ _ _ _ _ _ _ _ _ _ _ _ _ _ _ _ _ T), written_signs by (apply ind_signs || apply step_not_sign).
  cbn [orb]. rewrite andb_true_r. reflexivity.
Qed.
Lemma signs_first a t b a1 t' a2 : out = a ++ t :: b -> is_sign t = true -> a = a1 ++ t' :: a2 -> is_sign t' = false -> position a1 < position a.
Proof.
  rewrite (tc_out _ _ _ _ _ _ _ _ _ _ _ _ _ _ _ _ _ _ _ T). apply written_first; [apply ind_signs|apply step_not_sign].
Qed.
End Trace.
