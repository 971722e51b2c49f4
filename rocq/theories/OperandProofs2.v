(** Proofs about the match pattern parser and [unescape]. *)
From Verif Require Import Base BaseProofs RuleModel RegexpModel TableModel BrailleModel PatternModel OperandModel
  OperandProofs.

(** ** Match patterns: what is left, and fuel *)
Lemma m_characters_leaves s : leaves (m_characters s) s.
Proof.
  unfold m_characters. destruct (take_while _ s) as [cs r] eqn:E. destruct cs; [apply leaves_Bad|].
  apply leaves_Good. exists (n :: cs). split; [discriminate|]. eapply take_while_app, E.
Qed.
Lemma set_body_leaves s : leaves (set_body s) s.
Proof.
  assert (G : forall n s, length s <= n -> leaves (set_body s) s).
  { clear s. induction n as [|n IH]; intros s L.
    - destruct s; [apply leaves_Bad|simpl in L; lia].
    - destruct s as [|c r]; [apply leaves_Bad|]. simpl in L. cbn [set_body].
      destruct (N.eqb c 93); [apply leaves_Good, psuffix_cons|].
      destruct (N.eqb c 92).
      + destruct r as [|e r1]; [apply leaves_Bad|]. destruct (mem e _); [|apply leaves_Bad].
        match goal with |- leaves ?x _ => assert (X : leaves x r1) end.
        { apply leaves_bind; [apply IH; simpl in L; lia|]. intros. apply leaves'_Good, suffix_refl. }
        destruct X as [X1 X2]. split; [exact X1|]. intros a r' E.
        eapply psuffix_trans_l; [apply (X2 _ _ E)|exists [c; e]; reflexivity].
      + match goal with |- leaves ?x _ => assert (X : leaves x r) end.
        { apply leaves_bind; [apply IH; lia|]. intros. apply leaves'_Good, suffix_refl. }
        destruct X as [X1 X2]. split; [exact X1|]. intros a r' E.
        eapply psuffix_trans_l; [apply (X2 _ _ E)|exists [c]; reflexivity]. }
  apply (G (length s)). lia.
Qed.
Lemma m_set_leaves s : leaves (m_set s) s.
Proof.
  unfold m_set. apply leaves_bind; [apply consume_leaves|]. intros u r _.
  apply leaves'_bind; [apply leaves_weak, set_body_leaves|]. intros l r1 _.
  destruct l; [apply leaves'_Bad|apply leaves'_Good, suffix_refl].
Qed.
Lemma mattrs_body_leaves s : leaves (mattrs_body s) s.
Proof.
  induction s as [|c r IH]; [apply leaves_Bad|]. cbn [mattrs_body].
  destruct (N.eqb c 93); [apply leaves_Good, psuffix_cons|].
  destruct (match_attribute c); [|apply leaves_Bad].
  match goal with |- leaves ?x _ => assert (X : leaves x r) end.
  { apply leaves_bind; [apply IH|]. intros. apply leaves'_Good, suffix_refl. }
  destruct X as [X1 X2]. split; [exact X1|]. intros a' r' E.
  eapply psuffix_trans_l; [apply (X2 _ _ E)|exists [c]; reflexivity].
Qed.
Lemma m_attributes_leaves sd s : leaves (m_attributes sd s) s.
Proof.
  unfold m_attributes. apply leaves_bind; [apply consume_leaves|]. intros u r _.
  apply leaves'_bind.
  - destruct r as [|c r']; [apply leaves'_Bad|]. destruct (N.eqb c 91).
    + match goal with |- leaves' ?x _ => assert (X : leaves' x r') end.
      { apply leaves'_bind; [apply leaves_weak, mattrs_body_leaves|]. intros l r2 _.
        destruct l; [apply leaves'_Bad|apply leaves'_Good, suffix_refl]. }
      destruct X as [X1 X2]. split; [exact X1|]. intros a r2 E.
      eapply suffix_trans; [apply (X2 _ _ E)|exists [c]; reflexivity].
    + destruct (match_attribute c); [apply leaves'_Good; exists [c]; reflexivity|apply leaves'_Bad].
  - intros attrs r1 _. cbv zeta. destruct (existsb is_boundary attrs); [|apply leaves'_Good, suffix_refl].
    destruct (filter _ attrs); apply leaves'_Good, suffix_refl.
Qed.
Lemma m_quantifier_suffix p s q r : m_quantifier p s = (q, r) -> suffix_of r s.
Proof.
  unfold m_quantifier. destruct s as [|c s]; [intros [= <- <-]; apply suffix_refl|].
  destruct (N.eqb c 63); [intros [= <- <-]; exists [c]; reflexivity|].
  destruct (N.eqb c 42); [intros [= <- <-]; exists [c]; reflexivity|].
  destruct (N.eqb c 43); intros [= <- <-]; [exists [c]; reflexivity|apply suffix_refl].
Qed.

Lemma m_leaves f sd :
  (forall s, 4 * length s + 1 <= f -> leaves (m_inner f sd s) s) /\
  (forall s, 4 * length s + 2 <= f -> leaves (m_pattern f sd s) s) /\
  (forall s, 4 * length s + 3 <= f -> leaves' (m_sequence f sd s) s) /\
  (forall s, 4 * length s + 4 <= f -> leaves' (m_either f sd s) s) /\
  (forall l s, 4 * length s + 3 <= f -> leaves' (m_alternatives f sd l s) s).
Proof.
  induction f as [|f (II & IP & IS & IE & IA)]; [repeat split; lia|].
  split; [|split; [|split; [|split]]].
  - intros s L. cbn [m_inner]. destruct s as [|c r]; [apply leaves_Bad|]. cbn [length] in L.
    destruct (N.eqb c 46); [apply leaves_Good, psuffix_cons|].
    destruct (N.eqb c 37); [apply m_attributes_leaves|].
    destruct (N.eqb c 94); [apply leaves_Good, psuffix_cons|].
    destruct (N.eqb c 36); [apply leaves_Good, psuffix_cons|].
    destruct (N.eqb c 33).
    { match goal with |- leaves ?x _ => assert (X : leaves' x r) end.
      { apply leaves'_bind; [apply leaves_weak, IP; lia|]. intros p r1 _.
        destruct (is_pnegate p); [apply leaves'_Bad|apply leaves'_Good, suffix_refl]. }
      destruct X as [X1 X2]. split; [exact X1|]. intros a r' E.
      eapply psuffix_trans_r; [apply (X2 _ _ E)|apply psuffix_cons]. }
    destruct (N.eqb c 91); [apply m_set_leaves|].
    destruct (N.eqb c 40); [|apply m_characters_leaves].
    match goal with |- leaves ?x _ => assert (X : leaves' x r) end.
    { apply leaves'_bind; [apply IE; lia|]. intros ps r1 _.
      apply leaves'_bind; [apply leaves_weak, consume_leaves|]. intros u r2 _.
      destruct ps; [apply leaves'_Bad|apply leaves'_Good, suffix_refl]. }
    destruct X as [X1 X2]. split; [exact X1|]. intros a r' E.
    eapply psuffix_trans_r; [apply (X2 _ _ E)|apply psuffix_cons].
  - intros s L. cbn [m_pattern]. apply leaves_bind; [apply II; lia|]. intros p r _.
    destruct (m_quantifier p r) as [q r1] eqn:E. apply leaves'_Good. eapply m_quantifier_suffix, E.
  - intros s L. cbn [m_sequence]. destruct s as [|c r]; [apply leaves'_Good, suffix_refl|].
    destruct (N.eqb c 124 || N.eqb c 41)%bool; [apply leaves'_Good, suffix_refl|].
    assert (P : leaves (m_pattern f sd (c :: r)) (c :: r)) by (apply IP; lia).
    apply leaves'_bind; [apply leaves_weak, P|]. intros p r1 E.
    destruct P as [_ P]. specialize (P _ _ E). apply psuffix_length in P.
    apply leaves'_bind; [apply IS; lia|]. intros. apply leaves'_Good, suffix_refl.
  - intros s L. cbn [m_either]. destruct (match s with [] => false | c :: _ => N.eqb c 124 end); [apply leaves'_Bad|].
    assert (P : leaves' (m_sequence f sd s) s) by (apply IS; lia).
    apply leaves'_bind; [apply P|]. intros l r E.
    destruct P as [_ P]. specialize (P _ _ E). apply suffix_length in P. apply IA. lia.
  - intros l s L. cbn [m_alternatives]. destruct s as [|c r]; [apply leaves'_Good, suffix_refl|].
    destruct (N.eqb c 124); [|apply leaves'_Good, suffix_refl].
    match goal with |- leaves' ?x _ => assert (X : leaves' x r) end.
    { cbn [length] in L. assert (P : leaves' (m_sequence f sd r) r) by (apply IS; lia).
      apply leaves'_bind; [apply P|]. intros ri r1 E. destruct ri; [apply leaves'_Bad|].
      destruct P as [_ P]. specialize (P _ _ E). apply suffix_length in P. apply IA. lia. }
    destruct X as [X1 X2]. split; [exact X1|]. intros a r' E.
    eapply suffix_trans; [apply (X2 _ _ E)|exists [c]; reflexivity].
Qed.
Lemma parse_match_total sd s : parse_match_pattern sd s <> NoFuel.
Proof.
  unfold parse_match_pattern. destruct s as [|c r]; [discriminate|]. destruct (N.eqb c 45); [discriminate|].
  destruct (m_leaves (4 * length (c :: r) + 8) sd) as (_ & _ & _ & E & _).
  pose proof (proj1 (E (c :: r) ltac:(lia))) as F.
  destruct (m_either _ sd (c :: r)) as [ps r'| |]; simpl; try congruence. destruct r'; discriminate.
Qed.

(** ** Shape of accepted match patterns *)
Fixpoint wf_pat (p : pattern) : bool :=
  match p with
  | PAttributes a => negb (existsb bad_attr a)
  | PAttributesOrBoundary a _ => negb (existsb bad_attr a)
  | PGroup ps => negb (Nat.eqb (length ps) 0) && forallb wf_pat ps
  | PNegate q => negb (is_pnegate q) && wf_pat q
  | POptional q | PZeroOrMore q | POneOrMore q => wf_pat q
  | PEither l r => negb (Nat.eqb (length l) 0) && forallb wf_pat l
                   && negb (Nat.eqb (length r) 0) && forallb wf_pat r
  | _ => true
  end.
(** a negation inside a negation *)
Fixpoint negates (p : pattern) : bool :=
  match p with
  | PNegate _ => true
  | PGroup ps => existsb negates ps
  | POptional q | PZeroOrMore q | POneOrMore q => negates q
  | PEither l r => existsb negates l || existsb negates r
  | _ => false
  end.
Fixpoint nested_negation (p : pattern) : bool :=
  match p with
  | PNegate q => negates q
  | PGroup ps => existsb nested_negation ps
  | POptional q | PZeroOrMore q | POneOrMore q => nested_negation q
  | PEither l r => existsb nested_negation l || existsb nested_negation r
  | _ => false
  end.

Lemma match_attribute_good c a : match_attribute c = Some a -> is_boundary a = false -> bad_attr a = false.
Proof.
  unfold match_attribute. destruct (N.leb 48 c && N.leb c 55)%bool; [intros [= <-] _; reflexivity|].
  cbn [assoc].
  repeat match goal with
  | |- (if N.eqb c ?k then _ else _) = _ -> _ => destruct (N.eqb c k); [intros [= <-]; try reflexivity; discriminate|]
  end. discriminate.
Qed.
Lemma mattrs_body_good s l r : mattrs_body s = Good l r ->
  forall a, In a l -> is_boundary a = false -> bad_attr a = false.
Proof.
  revert l r. induction s as [|c s IH]; [discriminate|]. intros l r H. cbn [mattrs_body] in H.
  destruct (N.eqb c 93); [pinv; intros a []|].
  destruct (match_attribute c) eqn:E; [|discriminate]. pinv.
  intros x [<-|I]; [eapply match_attribute_good, E|]. eapply IH; eassumption.
Qed.
Lemma m_attributes_wf sd s p r : m_attributes sd s = Good p r -> wf_pat p = true.
Proof.
  unfold m_attributes. intros H. pinv.
  assert (G : forall a, In a a0 -> is_boundary a = false -> bad_attr a = false).
  { destruct r0 as [|c r']; [discriminate|]. destruct (N.eqb c 91).
    - pinv. destruct a1; [discriminate|]. pinv. eapply mattrs_body_good, E1.
    - destruct (match_attribute c) eqn:M; [|discriminate]. pinv. intros x [<-|[]].
      eapply match_attribute_good, M. }
  cbv zeta in H. destruct (existsb is_boundary a0) eqn:B.
  - destruct (filter _ a0) as [|y l] eqn:F; pinv; [reflexivity|]. cbn [wf_pat].
    apply negb_true_iff. rewrite <- F. clear -G. induction a0 as [|z l IH]; [reflexivity|]. simpl.
    destruct (is_boundary z) eqn:Z; simpl; [apply IH; intros; apply G; [right|]; assumption|].
    rewrite (G z (or_introl eq_refl) Z). simpl. apply IH. intros; apply G; [right|]; assumption.
  - pinv. cbn [wf_pat]. apply negb_true_iff. clear -G B. induction a0 as [|z l IH]; [reflexivity|].
    simpl in *. apply orb_false_iff in B. destruct B as [B1 B2].
    rewrite (G z (or_introl eq_refl) B1). simpl. apply IH; [exact B2|intros; apply G; [right|]; assumption].
Qed.
Lemma m_quantifier_wf p s q r : m_quantifier p s = (q, r) -> wf_pat p = true -> wf_pat q = true.
Proof.
  unfold m_quantifier. destruct s as [|c s]; [intros [= <- <-]; auto|].
  destruct (N.eqb c 63); [intros [= <- <-]; auto|].
  destruct (N.eqb c 42); [intros [= <- <-]; auto|].
  destruct (N.eqb c 43); intros [= <- <-]; auto.
Qed.

Lemma m_wf f sd :
  (forall s p r, m_inner f sd s = Good p r -> wf_pat p = true) /\
  (forall s p r, m_pattern f sd s = Good p r -> wf_pat p = true) /\
  (forall s ps r, m_sequence f sd s = Good ps r -> forallb wf_pat ps = true /\
     (ps = [] -> s = r /\ (r = [] \/ exists c r', r = c :: r' /\ (c = 124%N \/ c = 41%N)))) /\
  (forall s ps r, m_either f sd s = Good ps r -> forallb wf_pat ps = true /\
     (ps = [] -> s = r /\ (r = [] \/ exists r', r = 41%N :: r'))) /\
  (forall l s ps r, l <> [] -> forallb wf_pat l = true -> m_alternatives f sd l s = Good ps r ->
     forallb wf_pat ps = true /\ ps <> []).
Proof.
  induction f as [|f (II & IP & IS & IE & IA)]; [repeat split; discriminate|].
  split; [|split; [|split; [|split]]].
  - intros s p r0 H. cbn [m_inner] in H. destruct s as [|c r]; [discriminate|].
    destruct (N.eqb c 46); [pinv; reflexivity|].
    destruct (N.eqb c 37); [eapply m_attributes_wf, H|].
    destruct (N.eqb c 94); [pinv; reflexivity|].
    destruct (N.eqb c 36); [pinv; reflexivity|].
    destruct (N.eqb c 33).
    { pinv. destruct (is_pnegate a) eqn:N; [discriminate|]. pinv. cbn [wf_pat]. rewrite N. simpl.
      eapply IP, E. }
    destruct (N.eqb c 91).
    { unfold m_set in H. pinv. destruct a0; [discriminate|]. pinv. reflexivity. }
    destruct (N.eqb c 40).
    { pinv. destruct a as [|x l]; [discriminate|]. pinv. cbn [wf_pat length Nat.eqb negb andb].
      eapply IE, E. }
    unfold m_characters in H. destruct (take_while _ _) as [[|x l] y]; [discriminate|]. pinv. reflexivity.
  - intros s p r0 H. cbn [m_pattern] in H. pinv. destruct (m_quantifier a r) as [q r1] eqn:Q. pinv.
    eapply m_quantifier_wf; [exact Q|]. eapply II, E.
  - intros s ps r0 H. cbn [m_sequence] in H. destruct s as [|c r]; [pinv; auto|].
    destruct (N.eqb c 124 || N.eqb c 41)%bool eqn:B.
    { pinv. split; [reflexivity|]. intros _. split; [reflexivity|]. right. exists c, r. split; [reflexivity|].
      apply orb_prop in B. destruct B as [B|B]; apply N.eqb_eq in B; auto. }
    pinv. split; [|discriminate]. simpl. rewrite (IP _ _ _ E). simpl. eapply IS, E0.
  - intros s ps r0 H. cbn [m_either] in H.
    destruct (match s with [] => false | c :: _ => N.eqb c 124 end) eqn:B; [discriminate|]. pinv.
    destruct (IS _ _ _ E) as [W Em]. destruct a as [|x l].
    + destruct (Em eq_refl) as [-> C]. clear Em.
      assert (C' : r = [] \/ exists r', r = 41%N :: r').
      { destruct C as [C|(c & r' & -> & [->| ->])]; [left; exact C|discriminate|right; eauto]. }
      clear C. destruct f as [|f]; [discriminate|]. cbn [m_alternatives] in H.
      destruct C' as [->|(r' & ->)]; cbn in H; pinv; split; auto; intros _; split; auto; right; eauto.
    + destruct (IA (x :: l) _ _ _ ltac:(discriminate) W H) as [W' NE]. split; [exact W'|congruence].
  - intros l s ps r0 NE W H. cbn [m_alternatives] in H. destruct s as [|c r]; [pinv; auto|].
    destruct (N.eqb c 124); [|pinv; auto]. pinv. destruct a as [|x a]; [discriminate|].
    eapply IA; [| |exact H]; [discriminate|]. destruct (IS _ _ _ E) as [W' _].
    change (forallb wf_pat [PEither l (x :: a)]) with (wf_pat (PEither l (x :: a)) && true)%bool.
    cbn [wf_pat]. rewrite W, W'. destruct l; [congruence|]. reflexivity.
Qed.
Lemma parse_match_wf sd s ps r :
  s <> [] -> parse_match_pattern sd s = Good ps r -> forallb wf_pat ps = true /\ ps <> [].
Proof.
  unfold parse_match_pattern. destruct s as [|c s]; [congruence|]. intros _ H.
  destruct (N.eqb_spec c 45); [pinv; split; [reflexivity|discriminate]|]. pinv.
  destruct r0; [|discriminate]. pinv.
  destruct (m_wf (4 * length (c :: s) + 8) sd) as (_ & _ & _ & EI & _).
  destruct (EI _ _ _ E) as [W Em]. split; [exact W|]. intros ->. destruct (Em eq_refl) as [X _]. discriminate.
Qed.

(** ** Compilation *)
Lemma re_of_group ctx ps :
  re_of_pattern ctx (PGroup ps) = option_map RGroup (re_of_patterns ctx ps).
Proof.
  unfold re_of_patterns. cbn [re_of_pattern]. f_equal. f_equal.
  induction ps as [|x l IH]; [reflexivity|]. simpl. rewrite IH. reflexivity.
Qed.
Lemma re_of_either ctx l r :
  re_of_pattern ctx (PEither l r) = opt_map2 REither (re_of_patterns ctx l) (re_of_patterns ctx r).
Proof.
  unfold re_of_patterns. cbn [re_of_pattern]. f_equal; f_equal.
  - induction l as [|x l IH]; [reflexivity|]. simpl. rewrite IH. reflexivity.
  - induction r as [|x r IH]; [reflexivity|]. simpl. rewrite IH. reflexivity.
Qed.

Definition negatable (r : regexp) : Prop := exists r', negate r = Some r'.
Lemma concat_left_negatable rs a : negatable a -> Forall negatable rs -> negatable (concat_left a rs).
Proof.
  intros A F. revert a A. induction F as [|r rs (r' & R) _ IH]; intros a A; [exact A|]. simpl. apply IH.
  destruct A as (a' & A). exists (RConcat a' r'). simpl. rewrite A, R. reflexivity.
Qed.

Lemma list_negatable ctx (ps : list pattern) :
  Forall (fun p => wf_pat p = true -> nested_negation p = false ->
     exists r, re_of_pattern ctx p = Some r /\ (negates p = false -> negatable r)) ps ->
  ps <> [] -> forallb wf_pat ps = true -> existsb nested_negation ps = false ->
  exists r, re_of_patterns ctx ps = Some r /\ (existsb negates ps = false -> negatable r).
Proof.
  intros F NE W NN.
  assert (X : exists rs, re_of_pattern_list ctx ps = Some rs /\ length rs = length ps /\
             (existsb negates ps = false -> Forall negatable rs)).
  { clear NE. induction F as [|p ps H _ IH]; [exists []; auto|].
    simpl in W, NN. apply andb_prop in W. destruct W as [W1 W2].
    apply orb_false_iff in NN. destruct NN as [N1 N2].
    destruct (IH W2 N2) as (rs & E & L & G). destruct (H W1 N1) as (r & Er & Gr).
    exists (r :: rs). simpl. rewrite Er, E. split; [reflexivity|]. split; [simpl; lia|].
    intros B. apply orb_false_iff in B. destruct B as [B1 B2]. constructor; auto. }
  destruct X as (rs & E & L & G). unfold re_of_patterns. rewrite E. simpl.
  destruct rs as [|r rs]; [destruct ps; [congruence|discriminate]|].
  exists (concat_left r rs). split; [reflexivity|]. intros B. specialize (G B).
  inversion G; subst. apply concat_left_negatable; assumption.
Qed.
Lemma length_neq0 {A} (l : list A) : negb (Nat.eqb (length l) 0) = true -> l <> [].
Proof. destruct l; [discriminate|discriminate]. Qed.

Lemma re_of_pattern_some ctx p :
  wf_pat p = true -> nested_negation p = false ->
  exists r, re_of_pattern ctx p = Some r /\ (negates p = false -> negatable r).
Proof.
  induction p as [|s|sd|  |cs|a|a sd|ps IH|p IH|p IH|p IH|p IH|l r IHl IHr] using pat_ind'; intros W NN;
    try (eexists; split; [reflexivity|intros _; eexists; reflexivity]).
  - exists (boundary_anchor sd). split; [reflexivity|]. intros _. destruct sd; eexists; reflexivity.
  - cbn [re_of_pattern]. unfold re_of_attrs. cbn [wf_pat] in W. apply negb_true_iff in W. rewrite W.
    eexists; split; [reflexivity|]. intros _. eexists; reflexivity.
  - cbn [re_of_pattern]. unfold re_of_attrs. cbn [wf_pat] in W. apply negb_true_iff in W. rewrite W.
    eexists; split; [reflexivity|]. intros _. destruct sd; eexists; reflexivity.
  - rewrite re_of_group. cbn [wf_pat nested_negation negates] in *. apply andb_prop in W. destruct W as [W1 W2].
    destruct (list_negatable ctx ps IH (length_neq0 _ W1) W2 NN) as (r & E & G). rewrite E.
    exists (RGroup r). split; [reflexivity|]. intros B. destruct (G B) as (r' & R').
    exists (RGroup r'). simpl. rewrite R'. reflexivity.
  - cbn [wf_pat nested_negation negates] in *. apply andb_prop in W. destruct W as [W1 W2].
    assert (N2 : nested_negation p = false).
    { assert (K : forall q, negates q = false -> nested_negation q = false).
      { clear. induction q as [| | | | | | |ps IH|q IH|q IH|q IH|q IH|l r IHl IHr] using pat_ind';
          try reflexivity; cbn [negates nested_negation]; auto; try discriminate.
        - intros H. induction IH as [|x l Hx _ IHl]; [reflexivity|]. simpl in *.
          apply orb_false_iff in H. destruct H. rewrite Hx, IHl; auto.
        - intros H. apply orb_false_iff in H. destruct H as [H1 H2]. apply orb_false_iff. split.
          + clear IHr H2. induction IHl as [|x l Hx _ IH]; [reflexivity|]. simpl in *.
            apply orb_false_iff in H1. destruct H1. rewrite Hx, IH; auto.
          + clear IHl H1. induction IHr as [|x r Hx _ IH]; [reflexivity|]. simpl in *.
            apply orb_false_iff in H2. destruct H2. rewrite Hx, IH; auto. }
      apply K, NN. }
    destruct (IH W2 N2) as (r & E & G). destruct (G NN) as (r' & R').
    exists r'. cbn [re_of_pattern]. rewrite E. simpl. split; [exact R'|discriminate].
  - destruct (IH W NN) as (r & E & G). cbn [re_of_pattern negates]. rewrite E. simpl.
    eexists; split; [reflexivity|]. intros B. destruct (G B) as (r' & R'). eexists. simpl. rewrite R'. reflexivity.
  - destruct (IH W NN) as (r & E & G). cbn [re_of_pattern negates]. rewrite E. simpl.
    eexists; split; [reflexivity|]. intros B. destruct (G B) as (r' & R'). eexists. simpl. rewrite R'. reflexivity.
  - destruct (IH W NN) as (r & E & G). cbn [re_of_pattern negates]. rewrite E. simpl.
    eexists; split; [reflexivity|]. intros B. destruct (G B) as (r' & R'). eexists. simpl. rewrite R'. reflexivity.
  - rewrite re_of_either. cbn [wf_pat nested_negation negates] in *.
    apply andb_prop in W. destruct W as [W W4]. apply andb_prop in W. destruct W as [W W3].
    apply andb_prop in W. destruct W as [W1 W2]. apply orb_false_iff in NN. destruct NN as [N1 N2].
    destruct (list_negatable ctx l IHl (length_neq0 _ W1) W2 N1) as (a & Ea & Ga).
    destruct (list_negatable ctx r IHr (length_neq0 _ W3) W4 N2) as (b & Eb & Gb).
    rewrite Ea, Eb. exists (REither a b). split; [reflexivity|]. intros B. apply orb_false_iff in B.
    destruct B as [B1 B2]. destruct (Ga B1) as (a' & A'), (Gb B2) as (b' & B').
    exists (REither a' b'). simpl. rewrite A', B'. reflexivity.
Qed.
Lemma re_of_patterns_some ctx ps :
  ps <> [] -> forallb wf_pat ps = true -> existsb nested_negation ps = false ->
  exists r, re_of_patterns ctx ps = Some r.
Proof.
  intros NE W NN.
  destruct (list_negatable ctx ps) as (r & E & _); auto; [|eauto].
  apply Forall_forall. intros p _. apply re_of_pattern_some.
Qed.
