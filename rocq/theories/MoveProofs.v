(** A rule that translates its text, moved past rules for other texts. *)
From Coq Require Import Permutation Sorting.Sorted.
From Coq Require Import List.
From Verif Require Import Base BaseProofs RuleModel TranslationModel TableModel RegexpModel PatternModel HyphenationModel TrieModel TrieProofs
  LoopModel PrimaryProofs CompileModel CompileSpec CompileProofs MainTable ConstraintModel ConstraintSpec ConstraintProofs IndicatorModel EmphSpec
  MainSpec TraceSpec MainPass StepFacts PipelineModel PipelineSpec OrderSpec OrderProofs FrameSpec FrameProofs SaysSpec PropPieces.

Lemma path_sought ctx d a b : well_oriented a -> well_oriented b -> ins_path ctx d a = ins_path ctx d b -> sought d a = sought d b.
Proof. intros Wa Wb E. apply same_path_rivals in E; auto. apply E. Qed.

Lemma filter_moved ctx d l1 e m l2 : (forall a, In a (e ++ m) -> well_oriented a) ->
  (forall a b, In a e -> In b m -> sought d a <> sought d b) ->
  forall p, filter (same_path ctx d p) (l1 ++ e ++ m ++ l2) = filter (same_path ctx d p) (l1 ++ m ++ e ++ l2).
Proof.
  intros W N p. rewrite !filter_app. f_equal. rewrite !app_assoc. f_equal.
  destruct (filter (same_path ctx d p) e) as [|a r] eqn:E; [rewrite app_nil_r; reflexivity|].
  assert (X : filter (same_path ctx d p) m = []); [|rewrite X, app_nil_r; reflexivity].
  destruct (filter (same_path ctx d p) m) as [|b s] eqn:E'; [reflexivity|]. exfalso.
  assert (Ia : In a (filter (same_path ctx d p) e)) by (rewrite E; left; reflexivity).
  assert (Ib : In b (filter (same_path ctx d p) m)) by (rewrite E'; left; reflexivity).
  apply filter_In in Ia, Ib. destruct Ia as [Ia Pa], Ib as [Ib Pb]. apply same_path_true in Pa, Pb.
  apply (N a b Ia Ib). apply (path_sought ctx d a b); [apply W; apply in_app_iff; auto..|congruence].
Qed.
