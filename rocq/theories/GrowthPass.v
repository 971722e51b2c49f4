(** A correct, pass2, pass3 or pass4 pass writes no more than a multiple of the length of its text. *)
From Coq Require Import List.
From Verif Require Import Base BaseProofs RegexpModel RuleModel TranslationModel TranslationProofs TableModel PatternModel OperandModel OperandProofs OperandProofs2 GateProofs
  LoopModel LoopProofs PassSpec PassProofs PropMultipass PropPasses GrowthProofs GrowthMain.

Section Pass.
Variable lower : char -> list char.
Variable rules : list rule.
Variable d : direction.
Variable st : stage.
Variable x : context.
Variable ps : list cpat.
Hypothesis C : multipass_compile rules d st x = TOk ps.
Notation P := (length ps).
Lemma passes_gated p : In p ps -> gated (cp_re p).
Proof. intros H. destruct (pattern_of rules d st x ps C p H) as (r & test & action & _ & _ & _ & E). eapply insert_gated, E. Qed.

Section Trace.
Variable text : str.
Variable out : list resolved.
Hypothesis T : multipass_trace lower ps st text = Ok out.
Lemma piece_length t : In t out -> r_length t = length (r_input t).
Proof. apply (C03_pass_covers_input lower rules d st x ps text out C T). Qed.
Lemma stood_app a b : stood_for (a ++ b) = stood_for a + stood_for b.
Proof. unfold stood_for. rewrite flat_map_app, app_length. reflexivity. Qed.
Lemma zero_stood c : incl c out -> Forall (fun t => r_length t = 0) c -> stood_for c = 0.
Proof.
  intros I. induction 1 as [|t c Z F IH]; [reflexivity|]. unfold stood_for in *. cbn [flat_map]. rewrite app_length, IH by (intros y Hy; apply I; right; exact Hy).
  rewrite <- piece_length by (apply I; left; reflexivity). lia.
Qed.
Definition pass_run (b c : list resolved) : Prop :=
  Forall (fun t => r_length t = 0) c /\ NoDup (map subset_of c) /\ incl (map subset_of c) (insertions (b ++ c)) /\
  (forall t, In t (tl c) -> exists p e u, In p ps /\ cpat_find lower p e (Nat.eqb (stood_for b) 0) (skipn (stood_for b) text) = Ok (Some u) /\ subset_of u = subset_of t) /\
  length b <= (P + 2) * stood_for b.
Lemma pass_run_length b c : pass_run b c -> length c <= P + 1.
Proof.
  intros (_ & N & _ & F & _). destruct c as [|y c]; [cbn; lia|]. cbn [tl] in F. cbn [map] in N. inversion N as [|? ? _ N']; subst. cbn [length].
  rewrite <- (map_length subset_of c). assert (X : length (map subset_of c) <= P); [|lia].
  apply (pigeon (fun p s => exists e u, cpat_find lower p e (Nat.eqb (stood_for b) 0) (skipn (stood_for b) text) = Ok (Some u) /\ subset_of u = s)); [| |exact N'].
  - intros p s s' Hp (e & u & E & <-) (e' & u' & E' & <-). f_equal. eapply (offer_same lower p); [apply passes_gated, Hp|exact E|exact E'].
  - intros s Hs. apply in_map_iff in Hs. destruct Hs as (z & <- & Hz). destruct (F z Hz) as (p & e & u & H1 & H2 & H3). exists p. split; [exact H1|]. eauto.
Qed.
Lemma pass_runs a : forall r, out = a ++ r -> exists b c, a = b ++ c /\ pass_run b c.
Proof.
  induction a as [|y a IH] using rev_ind; intros r E.
  - exists [], []. split; [reflexivity|]. repeat split; try (cbn; lia); try (constructor; fail); auto; intros z [].
  - rewrite <- app_assoc in E. cbn [app] in E. destruct (IH _ E) as (b & c & -> & R). pose proof (pass_run_length b c R) as RL. pose proof R as (R2 & R3 & R4 & R5 & R6).
    assert (Ic : incl c out) by (intros z Hz; rewrite E; apply in_or_app; left; apply in_or_app; auto).
    assert (Iy : In y out) by (rewrite E; apply in_or_app; right; left; reflexivity).
    pose proof (zero_stood c Ic R2) as Z. pose proof (piece_length y Iy) as LY.
    destruct (C06_passes_choose lower rules d st x ps text out C T) as [CH _]. specialize (CH _ _ _ E).
    destruct (Nat.eq_dec (r_length y) 0) as [E0|E0].
    + exists b, (c ++ [y]). split; [rewrite app_assoc; reflexivity|].
      assert (NF : not_made (b ++ c) y /\ (c <> [] -> exists p e, In p ps /\ cpat_find lower p e (Nat.eqb (stood_for (b ++ c)) 0) (skipn (stood_for (b ++ c)) text) = Ok (Some y))).
      { destruct CH as [(_ & [((b0 & c0 & z & v & Ea & LZ & _) & NM)|(_ & l1 & p & l2 & Ep & ((e & q & He & Hq & Fd) & _ & NM) & _)])|(_ & ch & rest & _ & ->)].
        - split; [exact NM|]. intros NE. exfalso. destruct (exists_last NE) as (c' & w & Ec). rewrite Ec in Ea, R2. rewrite !app_assoc in Ea. apply app_inj_tail in Ea. destruct Ea as [_ ->].
          apply Forall_app in R2. destruct R2 as [_ R2]. inversion R2; subst. lia.
        - split; [exact NM|]. intros _. exists q, e. split; [|exact Fd]. destruct Hq as [<-|[]]. rewrite Ep. apply in_or_app. right. left. reflexivity.
        - discriminate E0. }
      destruct NF as [NM FO].
      assert (EI : insertions (b ++ c ++ [y]) = subset_of y :: insertions (b ++ c)).
      { unfold insertions. rewrite app_assoc, fold_left_app. cbn [fold_left]. rewrite E0. reflexivity. }
      split; [apply Forall_app; auto|]. rewrite map_app. cbn [map]. split; [|split; [|split; [|exact R6]]].
      * apply NoDup_Add with (a := subset_of y) (l := map subset_of c).
        { rewrite <- (app_nil_r (map _ c)) at 1. apply Add_app. }
        split; [exact R3|]. intros I. apply NM, R4, I.
      * rewrite EI. intros s I. apply in_app_iff in I. destruct I as [I|[<-|[]]]; [right; apply R4, I|left; reflexivity].
      * intros z I. destruct c as [|c0 c]; [destruct I|]. cbn [tl app] in I. apply in_app_iff in I. destruct I as [I|[<-|[]]]; [apply R5, I|].
        destruct FO as (p & e & Hp & F); [discriminate|]. rewrite stood_app, Z, Nat.add_0_r in F. eauto 8.
    + exists ((b ++ c) ++ [y]), []. split; [rewrite app_nil_r; reflexivity|]. split; [constructor|split; [constructor|split; [intros s []|split; [intros z []|]]]].
      rewrite !app_length, stood_app, stood_app, Z. unfold stood_for at 2. cbn [flat_map length]. rewrite app_nil_r, <- LY, Nat.add_0_r.
      apply Nat.le_trans with ((P + 2) * (stood_for b + 1)); [rewrite Nat.mul_add_distr_l; lia|]. apply Nat.mul_le_mono_l. lia.
Qed.
Lemma pass_count : length out <= (P + 2) * length text + P + 1.
Proof.
  destruct (pass_runs out [] (eq_sym (app_nil_r out))) as (b & c & E & R). pose proof (pass_run_length b c R). pose proof R as (R2 & _ & _ & _ & R6).
  assert (X : stood_for out = length text) by (unfold stood_for; rewrite (proj1 (C03_pass_covers_input lower rules d st x ps text out C T)); reflexivity).
  assert (Ic : incl c out) by (intros z Hz; rewrite E; apply in_or_app; auto).
  rewrite E, stood_app, (zero_stood c Ic R2), Nat.add_0_r in X. rewrite E, app_length, <- X. lia.
Qed.
End Trace.

Lemma pass_grows : exists n, forall text out, multipass_trace lower ps st text = Ok out ->
  length out <= n * (length text + 1) /\ length (flat_map r_output out) <= n * (length text + 1).
Proof.
  destruct (weighs_all lower ps) as (n & H). exists (P + 2 + (n + 1) * (P + 3)). intros text out T. pose proof (pass_count text out T) as PC.
  assert (LC : length out <= (P + 2) * (length text + 1)) by (rewrite Nat.mul_add_distr_l; lia).
  assert (PB : forall t, In t out -> length (r_output t) <= (n + 1) * (1 + length (r_input t))).
  { intros t I. apply in_split in I. destruct I as (a & b & E). destruct (C06_passes_choose lower rules d st x ps text out C T) as [CH _]. specialize (CH _ _ _ E).
    assert (M : forall u, length (r_output u) <= n * (1 + length (r_input u)) -> length (r_output u) <= (n + 1) * (1 + length (r_input u))).
    { intros u L. eapply Nat.le_trans; [exact L|]. apply Nat.mul_le_mono_r. lia. }
    destruct CH as [(_ & [((b0 & c0 & z & v & Ea & LZ & (e & p & _ & Hp & Fd) & _ & _ & Et) & NM)|(_ & l1 & p & l2 & Ep & ((e & q & He & Hq & Fd) & _ & NM) & _)])|(_ & ch & rest & _ & ->)].
    - subst t. cbn [with_offset r_output r_input]. apply M. exact (H p Hp _ _ _ _ Fd).
    - apply M. refine (H q _ _ _ _ _ Fd). destruct Hq as [<-|[]]. rewrite Ep. apply in_or_app. right. left. reflexivity.
    - cbn [resolved_new r_output r_input length]. lia. }
  assert (CO : flat_map r_input out = text) by (apply (C03_pass_covers_input lower rules d st x ps text out C T)).
  assert (S : length (flat_map r_output out) <= (n + 1) * (length out + length text)).
  { rewrite <- CO. clear - PB. induction out as [|t out IH]; [cbn; lia|]. cbn [flat_map length]. rewrite !app_length. specialize (IH (fun y Hy => PB y (or_intror Hy))). specialize (PB t (or_introl eq_refl)).
    eapply Nat.le_trans; [apply Nat.add_le_mono; [exact PB|exact IH]|]. rewrite <- Nat.mul_add_distr_l. apply Nat.mul_le_mono_l. lia. }
  split.
  - eapply Nat.le_trans; [exact LC|]. apply Nat.mul_le_mono_r. lia.
  - eapply Nat.le_trans; [exact S|]. eapply Nat.le_trans; [apply Nat.mul_le_mono_l with (m := (P + 3) * (length text + 1))|].
    + rewrite !Nat.mul_add_distr_r in *. lia.
    + rewrite Nat.mul_assoc. apply Nat.mul_le_mono_r. lia.
Qed.
End Pass.
