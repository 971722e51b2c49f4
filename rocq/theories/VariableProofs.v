From Verif Require Import Base BaseProofs RuleModel TranslationModel VariableSpec.

Definition sets (l : list (N * N)) : list effect := map (fun p => effect_new (fst p) (snd p)) l.
Lemma sets_app a b : sets (a ++ b) = sets a ++ sets b.
Proof. apply map_app. Qed.
Lemma assoc_cons_eq {A} k (v : A) l : assoc k ((k, v) :: l) = Some v.
Proof. cbn. rewrite N.eqb_refl. reflexivity. Qed.
Lemma sets_values l : forall l0 e0 e, values_of l0 e0 -> env_apply_all e0 (sets l) = Ok e -> values_of (l0 ++ l) e.
Proof.
  induction l as [|[v x] l IH]; intros l0 e0 e H E.
  - cbn in E. injection E as <-. rewrite app_nil_r. exact H.
  - cbn [sets map fst snd env_apply_all env_apply effect_new ef_slot ef_kind bind] in E.
    replace (l0 ++ (v, x) :: l) with ((l0 ++ [(v, x)]) ++ l) by (rewrite <- app_assoc; reflexivity).
    apply (IH _ ((v, x) :: e0)); [|exact E]. intros w. unfold env_get. cbn [assoc].
    destruct (N.eqb_spec w v) as [->|NE].
    + exists l0, []. split; [reflexivity|]. intros y [].
    + specialize (H w). unfold env_get in H. destruct (assoc w e0) as [y|].
      * destruct H as (l1 & l2 & -> & H). exists l1, (l2 ++ [(v, x)]). split; [rewrite <- app_assoc; reflexivity|].
        intros z Hz. apply in_app_or in Hz. destruct Hz as [Hz|[Hz|[]]]; [eapply H, Hz|congruence].
      * intros y Hy. apply in_app_or in Hy. destruct Hy as [Hy|[Hy|[]]]; [eapply H, Hy|congruence].
Qed.
Lemma values_new : values_of [] env_new.
Proof. intros v. cbn. intros y []. Qed.
Lemma assigned_values l e fs : fs = sets l -> env_apply_all env_new fs = Ok e -> values_of l e.
Proof. intros -> E. apply (sets_values l [] env_new e values_new E). Qed.
