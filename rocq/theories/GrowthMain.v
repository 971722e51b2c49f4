(** The main pass writes no more than a multiple of the length of its text. *)
From Coq Require Import List Permutation.
From Verif Require Import Base BaseProofs RegexpModel RuleModel TranslationModel TranslationProofs TableModel TableProofs PatternModel HyphenationModel
  TrieModel TrieProofs LoopModel LoopProofs CompileModel CompileSpec CompileProofs MainTable ConstraintModel ConstraintSpec IndicatorModel IndicatorProofs EmphSpec
  MainSpec StepProofs TraceSpec MainPass StepFacts SignProofs GrowthProofs SignCount.

(** ** Sums *)
Section Sums.
Variable mu : resolved -> nat.
Definition total (l : list resolved) : nat := list_sum (map mu l).
Lemma total_app a b : total (a ++ b) = total a + total b.
Proof. unfold total. rewrite map_app, list_sum_app. reflexivity. Qed.
Lemma total_nth ind : forall p, total (nth p ind []) + total (concat (skipn (S p) ind)) = total (concat (skipn p ind)).
Proof.
  induction ind as [|l ind IH]; intros [|p]; try reflexivity.
  - change (skipn 1 (l :: ind)) with ind. change (skipn 0 (l :: ind)) with (l :: ind). cbn [nth concat]. rewrite total_app. reflexivity.
  - change (skipn (S (S p)) (l :: ind)) with (skipn (S p) ind). change (skipn (S p) (l :: ind)) with (skipn p ind). exact (IH p).
Qed.
Lemma total_skip ind p q : p <= q -> total (concat (skipn q ind)) <= total (concat (skipn p ind)).
Proof. induction 1 as [|q _ IH]; [lia|]. pose proof (total_nth ind q). lia. Qed.
Lemma total_bound n l : (forall t, In t l -> mu t <= n) -> total l <= n * length l.
Proof. induction l as [|t l IH]; intros H; [cbn; lia|]. unfold total in *. cbn [map list_sum fold_right length]. specialize (IH (fun y Hy => H y (or_intror Hy))). specialize (H t (or_introl eq_refl)). unfold list_sum in *. rewrite Nat.mul_succ_r. lia. Qed.
Lemma written_total upper d lim ind (f : step -> nat) ts : (forall pos y, In y ts -> mu (shown upper d lim pos y) <= f y) ->
  forall pos first, total (written upper d lim ind pos first ts) <= list_sum (map f ts) + total (concat (skipn (if first then pos else S pos) ind)).
Proof.
  intros H. induction ts as [|y ts IH]; intros pos first; cbn [written]; rewrite total_app.
  - pose proof (total_nth ind pos). destruct first; change (total []) with 0; cbn [map list_sum fold_right]; [lia|]. change (total []) with 0. lia.
  - set (w := written _ _ _ _ _ _ _). change (total (shown upper d lim pos y :: w)) with (mu (shown upper d lim pos y) + total w).
    specialize (IH (fun p z Hz => H p z (or_intror Hz)) (pos + r_length (snd y)) (Nat.ltb 0 (r_length (snd y)))). fold w in IH.
    specialize (H pos y (or_introl eq_refl)). cbn [map list_sum fold_right]. unfold list_sum in *.
    pose proof (total_nth ind pos) as N.
    assert (M : total (concat (skipn (if Nat.ltb 0 (r_length (snd y)) then pos + r_length (snd y) else S (pos + r_length (snd y))) ind)) <= total (concat (skipn (S pos) ind))).
    { apply total_skip. destruct (Nat.ltb_spec 0 (r_length (snd y))); lia. }
    destruct first; [|change (total []) with 0]; lia.
Qed.
End Sums.
Lemma total_outputs l : total (fun t => length (r_output t)) l = length (flat_map r_output l).
Proof. unfold total. induction l as [|t l IH]; [reflexivity|]. cbn [map list_sum fold_right flat_map]. rewrite app_length. unfold list_sum in IH. rewrite IH. reflexivity. Qed.
Lemma total_count l : total (fun _ => 1) l = length l.
Proof. unfold total. induction l as [|t l IH]; [reflexivity|]. cbn [map list_sum fold_right length]. unfold list_sum in IH. lia. Qed.

Section Main.
Variable compat : bool.
Variable is_alphabetic : char -> bool.
Variable read_dictionary : str -> tres hyph.
Variable d : direction.
Variable x : context.
Variable rules : list rule.
Variable lower upper : char -> list char.
Variable sort : list event -> res (list event).
Variable m : main_table.
Hypothesis B : main_built is_alphabetic compat read_dictionary d x rules m.
Hypothesis DR : dictionaries_read read_dictionary.
Hypothesis SR : sort_rearranges sort.
(** backward, the library puts no character in more than [U] upper-case characters *)
Variable U : nat.
Hypothesis HU : d = Backward -> forall c, length (upper c) <= U.

Lemma cased_bound lim pos t : length (r_output (cased upper d lim pos t)) <= (U + 1) * length (r_output t).
Proof.
  unfold cased. destruct d; [lia|]. specialize (HU eq_refl). destruct (flag_at k_uppercase lim pos); [|destruct (flag_at k_titlecase lim pos)]; cbn [with_output r_output]; [| |lia].
  - eapply Nat.le_trans; [apply (flat_map_bound _ U); auto|]. apply Nat.mul_le_mono_r. lia.
  - destruct (r_output t) as [|c s]; [cbn; lia|]. rewrite app_length. cbn [length]. specialize (HU c). unfold str, char in *. lia.
Qed.
Lemma shown_bound lim pos y : length (r_output (shown upper d lim pos y)) <= (U + 1) * length (r_output (snd y)).
Proof. destruct y as [[| |] t]; cbn [shown snd]; try apply cased_bound. lia. Qed.
Lemma sign_bound : exists n, forall t, rule_sign rules t -> length (r_output t) <= n.
Proof.
  destruct (bound_all (fun n r => forall dots, sign_dots r = Some dots -> length dots <= n) rules) as (n & H).
  - intros r a b L Q dots E. specialize (Q dots E). lia.
  - intros r _. destruct (sign_dots r) as [s|]; [exists (length s); intros dots [= <-]; lia|exists 0; discriminate].
  - exists n. intros t (r & dots & I & E & ->). exact (H r I dots E).
Qed.
Lemma concat_sum {A} (l : list (list A)) : length (concat l) = list_sum (map (fun p => length (nth p l [])) (seq 0 (length l))).
Proof.
  induction l as [|a l IH]; [reflexivity|]. cbn [concat length seq map list_sum fold_right nth]. rewrite app_length, <- seq_shift, map_map, IH. reflexivity.
Qed.
Lemma sum_le {A} (f g : A -> nat) l : (forall y, In y l -> f y <= g y) -> list_sum (map f l) <= list_sum (map g l).
Proof. induction l as [|a l IH]; intros H; [reflexivity|]. cbn [map list_sum fold_right]. specialize (IH (fun y Hy => H y (or_intror Hy))). specialize (H a (or_introl eq_refl)). unfold list_sum in *. lia. Qed.
Lemma sum_plus {A} (f g : A -> nat) l : list_sum (map (fun y => f y + g y) l) = list_sum (map f l) + list_sum (map g l).
Proof. induction l as [|a l IH]; [reflexivity|]. cbn [map list_sum fold_right]. unfold list_sum in *. lia. Qed.
Lemma opt_length {T} (o : option T) (f : T -> list placed) n : (forall u, length (f u) <= n) -> length (opt_placed o f) <= n.
Proof. intros H. destruct o; cbn [opt_placed]; [apply H|cbn; lia]. Qed.
Lemma signs_count input spans sp em caps ind lim ts out : traced is_alphabetic compat read_dictionary d x rules lower upper sort m input spans sp em caps ind lim ts out ->
  length (concat ind) <= (3 * length (in_emph (mt_indicators m)) + 10) * (length input + length spans + 1).
Proof.
  intros T. set (i := mt_indicators m). set (h := fun (l : list placed) p => length (here p l)).
  rewrite concat_sum, (tc_ind_length _ _ _ _ _ _ _ _ _ _ _ _ _ _ _ _ _ _ _ T).
  assert (E : list_sum (map (fun p => length (nth p ind [])) (seq 0 (S (length input)))) <=
    list_sum (map (fun p => h (opt_placed (in_comp i) (fun u => comp_precompute u input sp)) p + (h em p + (h (opt_placed (in_numeric i) (fun u => numeric_precompute u input)) p +
      (h (opt_placed (in_letter i) (fun u => letter_precompute lower u input)) p + (h caps p + h (opt_placed (in_nocont i) (fun u => nocont_precompute lower u input)) p))))) (seq 0 (S (length input))))).
  { apply sum_le. intros p I. apply in_seq in I. rewrite (tc_ind _ _ _ _ _ _ _ _ _ _ _ _ _ _ _ _ _ _ _ T p) by lia.
    unfold signs_at, signs_here, h. rewrite !app_length, !map_length. fold i. lia. }
  rewrite !sum_plus in E. unfold h in E.
  pose proof (here_sum (opt_placed (in_comp i) (fun u => comp_precompute u input sp)) (S (length input))) as H1.
  pose proof (here_sum em (S (length input))) as H2.
  pose proof (here_sum (opt_placed (in_numeric i) (fun u => numeric_precompute u input)) (S (length input))) as H3.
  pose proof (here_sum (opt_placed (in_letter i) (fun u => letter_precompute lower u input)) (S (length input))) as H4.
  pose proof (here_sum caps (S (length input))) as H5.
  pose proof (here_sum (opt_placed (in_nocont i) (fun u => nocont_precompute lower u input)) (S (length input))) as H6.
  pose proof (opt_length (in_comp i) (fun u => comp_precompute u input sp) _ (fun u => comp_signs u input sp)) as L1.
  pose proof (emph_signs _ _ _ _ _ SR (tc_emph _ _ _ _ _ _ _ _ _ _ _ _ _ _ _ _ _ _ _ T)) as L2. fold i in L2.
  pose proof (opt_length (in_numeric i) (fun u => numeric_precompute u input) _ (fun u => numeric_signs u input)) as L3.
  pose proof (opt_length (in_letter i) (fun u => letter_precompute lower u input) _ (fun u => letter_signs lower u input)) as L4.
  assert (L5 : length caps <= 5 * length input).
  { pose proof (tc_caps _ _ _ _ _ _ _ _ _ _ _ _ _ _ _ _ _ _ _ T) as Ec. unfold caps_placed in Ec. destruct (in_caps (mt_indicators m)); [|injection Ec as <-; cbn; lia]. eapply caps_signs, Ec. }
  pose proof (opt_length (in_nocont i) (fun u => nocont_precompute lower u input) _ (fun u => nocont_signs lower u input)) as L6.
  pose proof (enriched_length _ _ _ _ (tc_spans _ _ _ _ _ _ _ _ _ _ _ _ _ _ _ _ _ _ _ T)) as L7.
  clear T. clearbody i. unfold placed, str, char in *.
  set (e := length (in_emph i)) in *. set (n := length input) in *. set (k := length spans) in *.
  assert (Q : 3 * e * n <= 3 * e * (n + k + 1)) by (apply Nat.mul_le_mono_l; lia). rewrite Nat.mul_add_distr_r. lia.
Qed.
(** What the main pass puts out - the number of its pieces and the text they make - is at
    most a number that depends on the table only times the length of the text and the
    number of emphasised stretches. *)
Lemma main_grows : exists n, forall input spans out, main_trace lower upper sort m input spans = Ok out ->
  length out <= n * (length input + length spans + 1) /\ length (flat_map r_output out) <= n * (length input + length spans + 1).
Proof.
  destruct (piece_bound compat read_dictionary d x rules lower (mt_rules m) (mb_rules _ _ _ _ _ _ _ B)) as (n1 & H1).
  destruct sign_bound as (n2 & H2). set (p := length (patterns x rules)). set (c := 3 * length (in_emph (mt_indicators m)) + 10).
  set (q := (p + 3)). exists ((q + c) + ((U + 1) * (n1 * (q + 1)) + n2 * c)). intros input spans out E.
  destruct (pass_traced _ _ _ _ _ _ lower upper sort m B DR input spans out SR E) as (sp & em & caps & ind & lim & ts & T).
  pose proof (signs_count _ _ _ _ _ _ _ _ _ T) as SC. fold c in SC.
  pose proof (tc_steps _ _ _ _ _ _ _ _ _ _ _ _ _ _ _ _ _ _ _ T) as DE. destruct (tc_end _ _ _ _ _ _ _ _ _ _ _ _ _ _ _ _ _ _ _ T) as (RE & _).
  pose proof (steps_bound compat read_dictionary d x rules lower (mt_rules m) (mb_rules _ _ _ _ _ _ _ B) lim input ts DE) as SB. fold p in SB. rewrite RE in SB.
  set (N := length input + length spans + 1) in *.
  assert (LS : length ts <= q * N). { unfold q, N. rewrite !Nat.mul_add_distr_l, !Nat.mul_add_distr_r in *. lia. }
  rewrite (tc_out _ _ _ _ _ _ _ _ _ _ _ _ _ _ _ _ _ _ _ T). split.
  - rewrite <- (total_count (written _ _ _ _ _ _ _)).
    eapply Nat.le_trans; [apply (written_total _ _ _ _ _ (fun _ => 1)); intros; lia|]. cbn [skipn]. rewrite total_count.
    assert (X : list_sum (map (fun _ : step => 1) ts) = length ts) by (clear; induction ts as [|y ts IH]; [reflexivity|]; cbn [map list_sum fold_right length]; unfold list_sum in IH; lia).
    rewrite X. rewrite !Nat.mul_add_distr_r. lia.
  - rewrite <- total_outputs.
    eapply Nat.le_trans; [apply (written_total _ _ _ _ _ (fun y => (U + 1) * (n1 * (1 + r_length (snd y)))))|].
    + intros pos y I. eapply Nat.le_trans; [apply shown_bound|]. apply Nat.mul_le_mono_l.
      assert (G : forall ts, derivation (rule_sources compat d x rules lower) d lim input ts -> In y ts -> length (r_output (snd y)) <= n1 * (1 + r_length (snd y))).
      { clear - H1 B. induction 1 as [|a z D IH BE]; intros I; [destruct I|]. apply in_app_iff in I. destruct I as [I|[<-|[]]]; [auto|].
        eapply H1; [|exact BE]. eapply derivation_inside; [exact (mb_rules _ _ _ _ _ _ _ B)|exact D]. }
      exact (G ts DE I).
    + cbn [skipn].
      assert (X : forall l, list_sum (map (fun y : step => (U + 1) * (n1 * (1 + r_length (snd y)))) l) = (U + 1) * (n1 * (length l + reached l))).
      { clear. induction l as [|y l IH]; [cbn; lia|]. unfold reached in *. cbn [map list_sum fold_right length] in *. unfold list_sum in *. rewrite IH, <- Nat.mul_add_distr_l, <- Nat.mul_add_distr_l. f_equal. f_equal. lia. }
      rewrite X, RE.
      assert (Y : total (fun t => length (r_output t)) (concat ind) <= n2 * length (concat ind)).
      { apply total_bound. intros t I. apply in_concat in I. destruct I as (l & I1 & I2). apply H2. eapply (tc_signs _ _ _ _ _ _ _ _ _ _ _ _ _ _ _ _ _ _ _ T); eauto. }
      assert (Z1 : (U + 1) * (n1 * (length ts + length input)) <= (U + 1) * (n1 * (q + 1)) * N).
      { rewrite <- !Nat.mul_assoc. apply Nat.mul_le_mono_l, Nat.mul_le_mono_l. rewrite Nat.mul_add_distr_r. unfold N at 2. lia. }
      assert (Z2 : n2 * length (concat ind) <= n2 * c * N) by (rewrite <- Nat.mul_assoc; apply Nat.mul_le_mono_l, SC).
      rewrite !Nat.mul_add_distr_r in *. lia.
Qed.
End Main.
