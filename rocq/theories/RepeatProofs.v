(** Moving and repeating a rule that only translates its text. *)
From Coq Require Import Permutation.
From Coq Require Import List.
From Verif Require Import Base BaseProofs RuleModel TranslationModel TableModel RegexpModel PatternModel HyphenationModel TrieModel TrieProofs
  LoopModel PrimaryProofs CompileModel CompileSpec CompileProofs MainTable ConstraintModel ConstraintSpec ConstraintProofs IndicatorModel EmphSpec
  MainSpec TraceSpec MainPass StepFacts PipelineModel PipelineSpec OrderSpec OrderProofs FrameSpec FrameProofs SaysSpec PropPieces MoveProofs
  SimilarProofs AgreeProofs RepeatSpec.

(** ** The entries of the tables *)
Section Entries.
Variable compat : bool.
Variable d : direction.
Variable x : context.
Variable a m b : list rule.
Variable r : rule.
Variable t : str.
Hypothesis T : translates r = Some t.
Notation here := (a ++ r :: m ++ b).
Notation there := (a ++ m ++ r :: b).
Notation twice := (a ++ r :: m ++ r :: b).
Lemma agree_moved : agree_but r here there.
Proof.
  eapply agree_trans; [apply agree_one|]. apply agree_sym. rewrite (app_assoc a m (r :: b)), (app_assoc a m b). apply agree_one.
Qed.
Lemma agree_twice : agree_but r here twice.
Proof.
  apply agree_sym. change (a ++ r :: m ++ r :: b) with (a ++ (r :: m) ++ r :: b). change (a ++ r :: m ++ b) with (a ++ (r :: m) ++ b).
  rewrite !app_assoc. apply agree_one.
Qed.
Lemma in_moved q : In q here <-> In q there.
Proof. rewrite !in_app_iff. cbn [In]. rewrite !in_app_iff. cbn [In]. tauto. Qed.
Lemma in_twice q : In q here <-> In q twice.
Proof. rewrite !in_app_iff. cbn [In]. rewrite !in_app_iff. cbn [In]. tauto. Qed.

(** one of the three tries *)
Inductive trie_kind := TMain | TNocross | TComp6.
Definition entries (k : trie_kind) (l : list rule) : list ins_args :=
  match k with TMain => main_entries d x l | TNocross => nocross_entries x l | TComp6 => comp6_entries x l end.
Definition own (k : trie_kind) : list ins_args :=
  match k with
  | TMain => if is_nocross r then [] else word_entries x r
  | TNocross => if is_nocross r then word_entries x r else []
  | TComp6 => comp6_entries_of x r
  end.
Lemma own_entries k e : In e (own k) -> In e (rule_entries x r).
Proof. unfold rule_entries. rewrite in_app_iff. destruct k; cbn [own]; auto; destruct (is_nocross r); auto; intros []. Qed.
Lemma places k : exists l1 lm l2, entries k here = l1 ++ own k ++ lm ++ l2 /\ entries k there = l1 ++ lm ++ own k ++ l2 /\
  entries k twice = l1 ++ own k ++ lm ++ own k ++ l2 /\ forall e, In e lm -> exists q, In q m /\ says x q (i_from e) (i_to e).
Proof.
  destruct k; cbn [entries own].
  - set (f := main_entries_of d x here). set (g := fun r => backward_only d (character_entries first_characters r)).
    assert (G : g r = []) by (unfold g, backward_only; clear - T; destruct r; try discriminate; destruct (is_backward d); reflexivity).
    assert (Ef : f r = if is_nocross r then [] else word_entries x r).
    { unfold f, main_entries_of, backward_only. clear - T. destruct r; try discriminate; destruct (is_backward d); reflexivity. }
    exists (flat_map g (a ++ m ++ b) ++ flat_map f a), (flat_map f m), (flat_map f b).
    assert (E1 : main_entries d x there = flat_map g there ++ flat_map f there).
    { unfold main_entries. fold g. f_equal. apply flat_map_same. intros q. symmetry. unfold f.
      apply (a_entries_of d x r t T here there agree_moved). }
    assert (E2 : main_entries d x twice = flat_map g twice ++ flat_map f twice).
    { unfold main_entries. fold g. f_equal. apply flat_map_same. intros q. symmetry. unfold f.
      apply (a_entries_of d x r t T here twice agree_twice). }
    assert (E3 : main_entries d x here = flat_map g here ++ flat_map f here) by reflexivity.
    rewrite E1, E2, E3, <- Ef. clear E1 E2 E3 Ef. rewrite !flat_map_app. cbn [flat_map]. rewrite !flat_map_app. cbn [flat_map]. rewrite G. cbn [app].
    rewrite <- !app_assoc. split; [reflexivity|]. split; [reflexivity|]. split; [reflexivity|].
    intros e I. apply in_flat_map in I. destruct I as (q & Iq & I). exists q. split; [exact Iq|].
    unfold f, main_entries_of in I. rewrite !in_app_iff in I. destruct I as [I|[I|I]].
    + unfold backward_only in I. destruct (is_backward d); [|destruct I]. apply (character_says d x here _ q e (or_intror eq_refl) I).
    + apply (indicator_says d x here q e I).
    + destruct (is_nocross q); [destruct I|]. apply (word_says x q e I).
  - set (f := fun r => if is_nocross r then word_entries x r else []).
    exists (flat_map f a), (flat_map f m), (flat_map f b). unfold nocross_entries. fold f. change (if is_nocross r then word_entries x r else []) with (f r).
    rewrite !flat_map_app. cbn [flat_map]. rewrite !flat_map_app. split; [reflexivity|]. split; [reflexivity|]. split; [reflexivity|].
    intros e I. apply in_flat_map in I. destruct I as (q & Iq & I). exists q. split; [exact Iq|]. unfold f in I.
    destruct (is_nocross q); [|destruct I]. apply (word_says x q e I).
  - exists (flat_map (comp6_entries_of x) a), (flat_map (comp6_entries_of x) m), (flat_map (comp6_entries_of x) b). unfold comp6_entries.
    rewrite !flat_map_app. cbn [flat_map]. rewrite !flat_map_app. split; [reflexivity|]. split; [reflexivity|]. split; [reflexivity|].
    intros e I. apply in_flat_map in I. destruct I as (q & Iq & I). exists q. split; [exact Iq|].
    destruct q; try destruct I. cbn [comp6_entries_of] in I. destruct (dots_of x dots chars) as [u| |] eqn:E; try destruct I as [<-|[]]; try destruct I.
    split; [reflexivity|]. apply dots_means, E.
Qed.
Lemma entries_oriented k l e : In e (entries k l) -> well_oriented e.
Proof. destruct k; cbn [entries]; intros H; [apply (main_oriented d x l e H)|apply (nocross_oriented x l e H)|apply (comp6_oriented x l e H)]. Qed.

(** the texts, or backward the cells, of the rules in between are others *)
Definition others_between : Prop := forall q text dots, In q m -> says x q text dots ->
  match d with Forward => text <> t | Backward => ~ means x (translation_of r) t dots end.
Lemma between_differ k e e' : others_between -> In e (own k) -> (exists q, In q m /\ says x q (i_from e') (i_to e')) -> sought d e <> sought d e'.
Proof.
  intros OT I (q & Iq & Sq) E. apply own_entries in I. destruct (FrameProofs.entry_of x r t e T I) as [E1 E2]. specialize (OT q _ _ Iq Sq).
  clear - E E1 E2 OT. destruct d; cbn [sought] in E.
  - apply OT. congruence.
  - apply OT. rewrite <- E. apply dots_means. exact E2.
Qed.
Notation values := (same_values compat (trie_ctx d x) d).
Lemma values_moved k : others_between -> values (entries k here) (entries k there).
Proof.
  intros OT p. destruct (places k) as (l1 & lm & l2 & E1 & E2 & _ & O). rewrite E1, E2. f_equal. apply filter_moved.
  - intros e He. apply (entries_oriented k here). rewrite E1, !in_app_iff. apply in_app_iff in He. tauto.
  - intros e e' He He'. apply (between_differ k); auto.
Qed.

Notation val := (ins_value compat (trie_ctx d x) d).
Lemma value_some e o : exists u, val e o = Some u.
Proof. unfold ins_value. destruct o; [|eauto]. destruct (prec_gt _ _); [eauto|]. destruct compat; eauto. Qed.
Lemma values_some l : forall o, l <> [] \/ o <> None -> exists u, fold_left (fun o e => val e o) l o = Some u.
Proof.
  induction l as [|e l IH]; intros o N; cbn [fold_left].
  - destruct o; [eauto|]. destruct N; congruence.
  - apply IH. right. destruct (value_some e o) as (u & ->). discriminate.
Qed.
Lemma own_weak k e : weak r = true -> In e (own k) -> i_prec e = PDefault.
Proof.
  intros Wk I. apply own_entries in I. clear - Wk I. unfold rule_entries, word_entries in I. apply in_app_iff in I.
  destruct r; try discriminate; cbn [word_insertions comp6_entries_of] in I; unfold dots_of in I;
    try (match type of I with context [braille_to_unicode ?u ?v ?w] => destruct (braille_to_unicode u v w) end); cbn [tbind In] in I;
    repeat (match type of I with _ \/ _ => destruct I as [I|I] end); try (destruct I; fail); try (subst e; reflexivity).
Qed.
Lemma weak_kept e u : compat = true -> i_prec e = PDefault -> val e (Some u) = Some u.
Proof. intros C P. unfold ins_value. rewrite P, C. destruct (r_prec u); reflexivity. Qed.
Lemma weak_kept_all l u : compat = true -> (forall e, In e l -> i_prec e = PDefault) -> fold_left (fun o e => val e o) l (Some u) = Some u.
Proof. intros C. induction l as [|e l IH]; intros H; cbn [fold_left]; [reflexivity|]. rewrite weak_kept by (auto; apply H; left; reflexivity). apply IH. intros f I. apply H. right. exact I. Qed.
Lemma weak_last e o : compat = false -> i_prec e = PDefault -> val e o = val e None.
Proof. intros C P. unfold ins_value. rewrite P, C. destruct o as [u|]; [destruct (r_prec u)|]; reflexivity. Qed.
Lemma weak_twice l o : (forall e, In e l -> i_prec e = PDefault) ->
  fold_left (fun o e => val e o) l (fold_left (fun o e => val e o) l o) = fold_left (fun o e => val e o) l o.
Proof.
  intros H. destruct l as [|e l]; [reflexivity|].
  destruct (values_some (e :: l) o) as (u & E); [left; discriminate|].
  assert (C : compat = true \/ compat = false) by (destruct compat; auto). destruct C as [C|C].
  - rewrite E. apply weak_kept_all; auto.
  - clear E. cbn [fold_left]. rewrite (weak_last e o C), (weak_last e _ C) by (apply H; left; reflexivity). reflexivity.
Qed.
Lemma plain_twice e o : i_before e = None -> i_after e = None -> i_constraints e = [] -> val e (val e o) = val e o.
Proof.
  intros B A K. assert (Ew : ins_weight (trie_ctx d x) d e = length (ins_from d e)).
  { unfold ins_weight, ins_path. rewrite A, B, K. cbn. rewrite ?app_nil_r, ?map_length. destruct d; cbn; rewrite ?app_nil_r, ?map_length; reflexivity. }
  assert (F : forall u, val e (Some u) = Some u \/ val e (Some u) = val e None).
  { intros u. unfold ins_value. rewrite Ew. destruct (prec_gt _ _); [auto|]. destruct compat; auto. }
  destruct (value_some e None) as (v & V).
  assert (X : val e (val e None) = val e None) by (destruct (F v) as [Y|Y]; rewrite V in *; congruence).
  destruct o as [u|]; [|exact X]. destruct (F u) as [Y|Y]; rewrite !Y; [reflexivity|exact X].
Qed.
Lemma own_plain k : plain_always r = true -> own k = [] \/ exists e, own k = [e] /\ i_before e = None /\ i_after e = None /\ i_constraints e = [].
Proof.
  intros P. clear - P. unfold own, word_entries. destruct r; try discriminate. cbn [plain_always] in P. match type of P with match ?w with _ => _ end = _ => destruct w; [|discriminate] end.
  cbn [word_insertions comp6_entries_of class_constraints flat_map].
  destruct k; try (left; reflexivity); cbn [is_nocross].
  all: match goal with |- context [if ?q then _ else _] => destruct q end; try (left; reflexivity).
  all: destruct (dots_of x dots chars); cbn [tbind]; [right; eexists; split; [reflexivity|repeat split]|left; reflexivity..].
Qed.
Lemma values_twice k : compat = true /\ weak r = true \/ (weak r = true \/ plain_always r = true) /\ others_between ->
  values (entries k here) (entries k twice).
Proof.
  intros R p. destruct (places k) as (l1 & lm & l2 & E1 & _ & E3 & O).
  assert (Wl : forall e, In e (own k ++ lm) -> well_oriented e).
  { intros e He. apply (entries_oriented k here). rewrite E1, !in_app_iff. apply in_app_iff in He. tauto. }
  rewrite E1, E3, !filter_app, !fold_left_app. f_equal.
  set (s0 := fold_left _ (filter _ l1) None). clearbody s0.
  destruct R as [[C Wk]|[Wk OT]].
  - destruct (filter (same_path (trie_ctx d x) d p) (own k)) as [|e l] eqn:Fe; [reflexivity|].
    assert (H : forall f, In f (e :: l) -> i_prec f = PDefault).
    { intros f I. rewrite <- Fe in I. apply filter_In in I. apply (own_weak k); [exact Wk|apply I]. }
    destruct (values_some (e :: l) s0) as (u & Eu); [left; discriminate|]. rewrite Eu.
    destruct (values_some (filter (same_path (trie_ctx d x) d p) lm) (Some u)) as (v & Ev); [right; discriminate|]. rewrite Ev.
    symmetry. apply weak_kept_all; auto.
  - destruct (filter (same_path (trie_ctx d x) d p) (own k)) as [|e l] eqn:Fe; [reflexivity|].
    assert (Fm : filter (same_path (trie_ctx d x) d p) lm = []).
    { destruct (filter (same_path (trie_ctx d x) d p) lm) as [|e' l'] eqn:E'; [reflexivity|]. exfalso.
      assert (Ia : In e (filter (same_path (trie_ctx d x) d p) (own k))) by (rewrite Fe; left; reflexivity).
      assert (Ib : In e' (filter (same_path (trie_ctx d x) d p) lm)) by (rewrite E'; left; reflexivity).
      apply filter_In in Ia, Ib. destruct Ia as [Ia Pa], Ib as [Ib Pb]. apply same_path_true in Pa, Pb.
      apply (between_differ k e e' OT Ia (O e' Ib)). apply (path_sought (trie_ctx d x) d e e'); [apply Wl; apply in_app_iff; auto..|congruence]. }
    rewrite Fm. cbn [fold_left]. destruct Wk as [Wk|Pl].
    + symmetry. apply (weak_twice (e :: l)). intros f I. rewrite <- Fe in I. apply filter_In in I. apply (own_weak k); [exact Wk|apply I].
    + destruct (own_plain k Pl) as [Eo|(f & Eo & B & A & K)]; rewrite Eo in Fe; [discriminate|]. cbn [filter] in Fe.
      destruct (same_path (trie_ctx d x) d p f); [|discriminate]. injection Fe as <- <-. symmetry. apply plain_twice; assumption.
Qed.
End Entries.
