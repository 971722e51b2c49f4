(** The signs of a trace, by kind. *)
From Coq Require Import Permutation.
From Verif Require Import Base BaseProofs RuleModel TranslationModel TranslationProofs TableModel TableProofs RegexpModel
  TrieModel TrieProofs PropTrie HyphenationModel LoopModel CompileModel CompileSpec
  CompileProofs MainTable ConstraintModel ConstraintSpec ConstraintProofs IndicatorModel IndicatorProofs
  CapsSpec CapsProofs CapsFacts EmphSpec EmphProofs MainSpec TraceSpec MainPass StepFacts TraceProofs SignSpec.

Lemma speaks_iff r n : emph_name r = Some n <-> speaks_of r n.
Proof. destruct r; cbn [emph_name]; split; intros H; try discriminate H; try (injection H as ->; constructor); inversion H; reflexivity. Qed.
Lemma last_with_iff {A} rules (f : rule -> option A) a : last_some rules f = Some a <-> exists r, last_with rules f r a.
Proof.
  unfold last_some, last_with. assert (G : forall l acc, fold_left (fun a r => match f r with Some b => Some b | None => a end) l acc = Some a <->
    (exists r l1 l2, l = l1 ++ r :: l2 /\ f r = Some a /\ forall r', In r' l2 -> f r' = None) \/ ((forall r', In r' l -> f r' = None) /\ acc = Some a)).
  { induction l as [|r l IH]; intros acc; cbn [fold_left].
    - split; [intros H; right; split; [intros ? []|exact H]|]. intros [(r & l1 & l2 & E & _)|[_ H]]; [destruct l1; discriminate|exact H].
    - rewrite IH. split.
      + intros [(r' & l1 & l2 & -> & H)|[H E]]; [left; exists r', (r :: l1), l2; auto|].
        destruct (f r) as [b|] eqn:Ef; [left; exists r, [], l; injection E as <-; auto|].
        right. split; [|exact E]. intros r' [<-|Hr]; auto.
      + intros [(r' & l1 & l2 & E & H1 & H2)|[H E]].
        * destruct l1 as [|q l1]; injection E as -> ->; [|left; exists r', l1, l2; auto]. right. split; [exact H2|]. rewrite H1. reflexivity.
        * right. split; [intros; apply H; right; assumption|]. rewrite (H r (or_introl eq_refl)). exact E. }
  rewrite G. split.
  - intros [(r & l1 & l2 & H)|[_ H]]; [exists r, l1, l2; exact H|discriminate].
  - intros (r & l1 & l2 & H). left. exists r, l1, l2. exact H.
Qed.
Lemma last_some_none {A} rules (f : rule -> option A) : last_some rules f = None <-> forall r, In r rules -> f r = None.
Proof.
  split.
  - intros E r Hr. apply in_split in Hr. destruct Hr as (l1 & l2 & ->). destruct (f r) as [a|] eqn:F; [|reflexivity]. exfalso.
    unfold last_some in E. rewrite fold_left_app in E. cbn [fold_left] in E. rewrite F in E. revert E. generalize a. clear.
    induction l2 as [|q l IH]; intros a; cbn [fold_left]; [discriminate|]. destruct (f q); apply IH.
  - intros H. destruct (last_some rules f) as [a|] eqn:E; [|reflexivity]. apply last_some_In in E. destruct E as (r & Hr & E).
    rewrite (H r Hr) in E. discriminate.
Qed.

Lemma class_In m k c : In c (cls_chars m k) <-> cls_has m k c = true.
Proof.
  rewrite cls_has_In. unfold cls_chars. rewrite in_map_iff. split.
  - intros ([k' c'] & <- & H). apply filter_In in H. destruct H as [H E]. cbn in *. apply class_eqb_eq in E. subst. exact H.
  - intros H. exists (k, c). split; [reflexivity|]. apply filter_In. split; [exact H|]. cbn. apply class_eqb_eq. reflexivity.
Qed.
Lemma last_with_unique {A} rules (f : rule -> option A) r1 d1 r2 d2 : last_with rules f r1 d1 -> last_with rules f r2 d2 -> r1 = r2 /\ d1 = d2.
Proof.
  intros (a1 & b1 & X1 & Y1 & Z1) (a2 & b2 & X2 & Y2 & Z2). rewrite X1 in X2. clear X1.
  apply app_eq_cases in X2. destruct X2 as [(e & -> & X)|(e & -> & X)].
  - destruct e as [|e0 e]; injection X as <- X; [split; congruence|]. subst b1. specialize (Z1 r2 (in_elt _ _ _)). congruence.
  - destruct e as [|e0 e]; injection X as -> X; [split; congruence|]. subst b2. specialize (Z2 r1 (in_elt _ _ _)). congruence.
Qed.

Definition of_rule (rules : list rule) (f : family) (t : resolved) : Prop :=
  exists r dots, In r rules /\ sign_family r = Some f /\ t = sign dots r.
Lemma of_rule_family rules f t : of_rule rules f t -> of_family f t = true.
Proof. intros (r & dots & _ & F & ->). unfold of_family. cbn. rewrite F. destruct f; reflexivity. Qed.
Lemma of_rule_other rules f g t : of_rule rules g t -> f <> g -> of_family f t = false.
Proof. intros (r & dots & _ & F & ->) N. unfold of_family. cbn. rewrite F. destruct f, g; try reflexivity; destruct (N eq_refl). Qed.
Lemma filter_all {A} (f : A -> bool) l : (forall a, In a l -> f a = true) -> filter f l = l.
Proof. induction l as [|a l IH]; intros H; cbn; [reflexivity|]. rewrite (H a (or_introl eq_refl)), IH; [reflexivity|]. intros; apply H; right; assumption. Qed.
Lemma filter_none {A} (f : A -> bool) l : (forall a, In a l -> f a = false) -> filter f l = [].
Proof. induction l as [|a l IH]; intros H; cbn; [reflexivity|]. rewrite (H a (or_introl eq_refl)), IH; [reflexivity|]. intros; apply H; right; assumption. Qed.

Section Signs.
Variable is_alphabetic : char -> bool.
Variable compat : bool.
Variable read_dictionary : str -> tres hyph.
Variable d : direction.
Variable x : context.
Variable rules : list rule.
Variable lower upper : char -> list char.
Variable sort : list event -> res (list event).
Variable m : main_table.
Hypothesis B : main_built is_alphabetic compat read_dictionary d x rules m.
Hypothesis DR : dictionaries_read read_dictionary.
Hypothesis SR : sort_rearranges sort.
Notation trace := (main_trace lower upper sort m).
Notation i := (mt_indicators m).

(** the indicators are those of the table *)
Lemma built_comp : in_comp i = build_comp_ind rules.
Proof. destruct (mb_indicators _ _ _ _ _ _ _ B) as (o1 & o2 & i0 & O1 & O2 & EB & E1 & _). rewrite E1. unfold build_indicators in EB.
  destruct (build_letter_ind compat x rules o1); try discriminate. cbn [tbind] in EB. destruct (build_nocont_ind compat x rules o2); try discriminate. cbn [tbind] in EB. injection EB as <-. reflexivity. Qed.
Lemma built_emph : in_emph i = build_emph x rules.
Proof. destruct (mb_indicators _ _ _ _ _ _ _ B) as (o1 & o2 & i0 & O1 & O2 & EB & _ & E1 & _). rewrite E1. unfold build_indicators in EB.
  destruct (build_letter_ind compat x rules o1); try discriminate. cbn [tbind] in EB. destruct (build_nocont_ind compat x rules o2); try discriminate. cbn [tbind] in EB. injection EB as <-. reflexivity. Qed.
Lemma built_numeric : in_numeric i = build_numeric_ind x rules.
Proof. destruct (mb_indicators _ _ _ _ _ _ _ B) as (o1 & o2 & i0 & O1 & O2 & EB & _ & _ & E1 & _). rewrite E1. unfold build_indicators in EB.
  destruct (build_letter_ind compat x rules o1); try discriminate. cbn [tbind] in EB. destruct (build_nocont_ind compat x rules o2); try discriminate. cbn [tbind] in EB. injection EB as <-. reflexivity. Qed.
Lemma built_caps : in_caps i = build_caps_ind x rules.
Proof. destruct (mb_indicators _ _ _ _ _ _ _ B) as (o1 & o2 & i0 & O1 & O2 & EB & _ & _ & _ & E1 & _). rewrite E1. unfold build_indicators in EB.
  destruct (build_letter_ind compat x rules o1); try discriminate. cbn [tbind] in EB. destruct (build_nocont_ind compat x rules o2); try discriminate. cbn [tbind] in EB. injection EB as <-. reflexivity. Qed.
Lemma built_letter : exists order li, permuting order /\ build_letter_ind compat x rules order = TOk li /\ same_letter li (in_letter i).
Proof. destruct (mb_indicators _ _ _ _ _ _ _ B) as (o1 & o2 & i0 & O1 & O2 & EB & _ & _ & _ & _ & E1 & _). unfold build_indicators in EB.
  destruct (build_letter_ind compat x rules o1) as [li| |] eqn:E; try discriminate. cbn [tbind] in EB. destruct (build_nocont_ind compat x rules o2); try discriminate. cbn [tbind] in EB. injection EB as <-.
  exists o1, li. auto. Qed.
Lemma built_nocont : exists order li, permuting order /\ build_nocont_ind compat x rules order = TOk li /\ same_nocont li (in_nocont i).
Proof. destruct (mb_indicators _ _ _ _ _ _ _ B) as (o1 & o2 & i0 & O1 & O2 & EB & _ & _ & _ & _ & _ & E1). unfold build_indicators in EB.
  destruct (build_letter_ind compat x rules o1) as [li| |] eqn:E; try discriminate. cbn [tbind] in EB. destruct (build_nocont_ind compat x rules o2) as [nc| |] eqn:EN; try discriminate. cbn [tbind] in EB. injection EB as <-.
  exists o2, nc. auto. Qed.

(** the kind of each sign *)
Lemma get_of f (g : rule -> option str) t : (forall r dots, g r = Some dots -> sign_family r = Some f) ->
  last_some rules (fun r => match g r with Some dots => Some (sign dots r) | None => None end) = Some t -> of_rule rules f t.
Proof.
  intros F H. apply last_some_In in H. destruct H as (r & Hr & H). destruct (g r) as [dots|] eqn:E; [|discriminate]. injection H as <-.
  exists r, dots. eauto.
Qed.
Lemma of_numeric u : build_numeric_ind x rules = Some u -> of_rule rules Number (ni_start u) /\ forall t, ni_end u = Some t -> of_rule rules Number t.
Proof.
  unfold build_numeric_ind. destruct (last_some rules _) as [t|] eqn:E; [|discriminate]. destruct (is_empty (digits x)); [discriminate|].
  intros [= <-]. cbn [ni_start ni_end]. apply last_some_In in E. destruct E as (r & Hr & E). destruct r; try discriminate. injection E as <-.
  split; [eexists; eexists; split; [exact Hr|split; reflexivity]|]. intros t E. apply last_some_In in E. destruct E as (r & Hr' & E).
  destruct r; try discriminate. injection E as <-. eexists; eexists; split; [exact Hr'|split; reflexivity].
Qed.
Lemma of_comp u : build_comp_ind rules = Some u -> of_rule rules Computer (ci_beg u) /\ forall t, ci_end u = Some t -> of_rule rules Computer t.
Proof.
  unfold build_comp_ind. destruct (last_some rules _) as [t|] eqn:E; [|discriminate].
  intros [= <-]. cbn [ci_beg ci_end]. apply last_some_In in E. destruct E as (r & Hr & E). destruct r; try discriminate. injection E as <-.
  split; [eexists; eexists; split; [exact Hr|split; reflexivity]|]. intros t E. apply last_some_In in E. destruct E as (r & Hr' & E).
  destruct r; try discriminate. injection E as <-. eexists; eexists; split; [exact Hr'|split; reflexivity].
Qed.
Lemma of_nocont order u : build_nocont_ind compat x rules order = TOk (Some u) -> of_rule rules Nocontract (no_sign u).
Proof.
  unfold build_nocont_ind. destruct (last_rule rules _) as [[dots r]|] eqn:E; [|discriminate]. apply last_rule_In in E.
  destruct (is_empty (contractions rules)); [discriminate|]. destruct (contraction_trie _ _ _ _ _ _) as [n| |]; try discriminate. cbn [tbind].
  intros [= <-]. cbn. destruct E as [E1 E2]. exists r, dots. split; [exact E1|]. split; [destruct r; try discriminate; reflexivity|reflexivity].
Qed.
Lemma of_letter order u : build_letter_ind compat x rules order = TOk (Some u) -> of_rule rules Letter (li_sign u).
Proof.
  unfold build_letter_ind. destruct (last_rule rules _) as [[dots r]|] eqn:E; [|discriminate]. apply last_rule_In in E.
  destruct (contraction_trie _ _ _ _ _ _) as [n| |]; try discriminate. cbn [tbind].
  intros [= <-]. cbn. destruct E as [E1 E2]. exists r, dots. split; [exact E1|]. split; [destruct r; try discriminate; reflexivity|reflexivity].
Qed.
Lemma of_caps u t : build_caps_ind x rules = Some u ->
  In (Some t) [ui_letter u; ui_begword u; ui_endword u; ui_beg u; ui_end u; ui_begphrase u; ui_endphrase u] -> of_rule rules Capitals t.
Proof.
  unfold build_caps_ind. match goal with |- (if caps_indicating ?v then _ else _) = _ -> _ => destruct (caps_indicating v) end; [|discriminate].
  intros [= <-]. cbn [ui_letter ui_begword ui_endword ui_beg ui_end ui_begphrase ui_endphrase In].
  intros H. repeat (destruct H as [H|H]; [eapply get_of; [|exact H]; intros r dots; destruct r; try discriminate; reflexivity|]). destruct H.
Qed.
Lemma of_emph u t : In u (build_emph x rules) -> In (Some t) (class_signs u) -> of_rule rules Emphasis t.
Proof.
  unfold build_emph. rewrite filter_In, in_map_iff. intros ((name & <- & _) & _). unfold build_emph_class, class_signs.
  cbn [em_letter em_beg em_end em_begword em_endword em_begphrase em_endphrase In].
  intros H.
  assert (G : forall (f : rule -> option str) (own : rule -> bool), (forall r dots, f r = Some dots -> sign_family r = Some Emphasis) -> last_some rules (fun r => if own r then
     match f r with Some dots => Some (sign dots r) | None => None end else None) = Some t -> of_rule rules Emphasis t).
  { intros f own F E. apply last_some_In in E. destruct E as (r & Hr & E). destruct (own r); [|discriminate].
    destruct (f r) as [dots|] eqn:Ef; [|discriminate]. injection E as <-. exists r, dots. eauto. }
  repeat (destruct H as [H|H]; [eapply (G _ (fun r => match emph_name r with Some n => str_eqb n name | None => false end)); [|exact H]; intros r dots; destruct r; try discriminate; reflexivity|]). destruct H.
Qed.

Section Position.
Variable input : str.
Variable sp : list span.
Variable em caps : list placed.
Hypothesis EM : emph_precompute sort (in_emph i) input sp = Ok em.
Hypothesis CP : caps_placed i input = Ok caps.
Definition source (f : family) : list placed :=
  match f with
  | Computer => opt_placed (in_comp i) (fun u => comp_precompute u input sp)
  | Emphasis => em
  | Number => opt_placed (in_numeric i) (fun u => numeric_precompute u input)
  | Letter => opt_placed (in_letter i) (fun u => letter_precompute lower u input)
  | Capitals => caps
  | Nocontract => opt_placed (in_nocont i) (fun u => nocont_precompute lower u input)
  end.
Lemma source_of f p t : In (p, t) (source f) -> of_rule rules f t.
Proof.
  destruct f; cbn [source].
  - rewrite built_comp. destruct (build_comp_ind rules) as [u|] eqn:E; [|intros []]. cbn [opt_placed]. destruct (of_comp u E) as [S1 S2].
    intros H. apply comp_precompute_spec in H. destruct H as (s & a & e & _ & _ & [[_ ->]|[_ H]]); auto.
  - intros H. pose proof (emph_inside sort _ _ _ _ SR EM) as F. rewrite Forall_forall in F. specialize (F _ H). cbn in F.
    destruct F as (_ & u & Hu & Ht). rewrite built_emph in Hu. eapply of_emph; eauto.
  - rewrite built_numeric. destruct (build_numeric_ind x rules) as [u|] eqn:E; [|intros []]. cbn [opt_placed]. destruct (of_numeric u E) as [S1 S2].
    intros H. apply numeric_signs_spec in H. destruct H as [[-> _]|(H & _)]; auto.
  - destruct built_letter as (o & li & _ & EL & SL). destruct (in_letter i) as [u|]; [|intros []]. destruct li as [v|]; [|destruct SL].
    destruct SL as (_ & Es & _). cbn [opt_placed]. intros H. apply letter_spec in H. destruct H as [-> _]. rewrite Es. eapply of_letter; eauto.
  - unfold caps_placed in CP. rewrite built_caps in CP. destruct (build_caps_ind x rules) as [u|] eqn:E.
    + destruct (caps_total u input) as (l & El & F). rewrite El in CP. injection CP as <-. intros H. rewrite Forall_forall in F. specialize (F _ H). cbn in F.
      eapply of_caps; [exact E|apply F].
    + injection CP as <-. intros [].
  - destruct built_nocont as (o & li & _ & EL & SL). destruct (in_nocont i) as [u|]; [|intros []]. destruct li as [v|]; [|destruct SL].
    destruct SL as (_ & Es). cbn [opt_placed]. intros H. apply nocont_spec in H. destruct H as [-> _]. rewrite Es. eapply of_nocont; eauto.
Qed.
Lemma signs_at_of f p : filter (of_family f) (signs_at i lower input sp em caps p) = signs_here p (source f).
Proof.
  assert (K : forall g, filter (of_family f) (signs_here p (source g)) = if family_eqb f g then signs_here p (source g) else []).
  { intros g. assert (H : forall t, In t (signs_here p (source g)) -> of_rule rules g t).
    { intros t H. apply in_map_iff in H. destruct H as ([q t'] & <- & H). apply filter_In in H. destruct H as [H _]. eapply source_of, H. }
    destruct (family_eqb f g) eqn:E.
    - apply filter_all. intros t Ht. apply of_rule_family with rules. assert (f = g) as -> by (destruct f, g; try discriminate; reflexivity). auto.
    - apply filter_none. intros t Ht. eapply of_rule_other; [apply H, Ht|]. intros ->. destruct g; discriminate. }
  unfold signs_at. rewrite !filter_app.
  change (opt_placed (in_comp i) (fun u => comp_precompute u input sp)) with (source Computer).
  change (opt_placed (in_numeric i) (fun u => numeric_precompute u input)) with (source Number).
  change (opt_placed (in_letter i) (fun u => letter_precompute lower u input)) with (source Letter).
  change (opt_placed (in_nocont i) (fun u => nocont_precompute lower u input)) with (source Nocontract).
  change em with (source Emphasis) at 1. change caps with (source Capitals) at 1.
  rewrite !K. destruct f; cbn [family_eqb app]; rewrite ?app_nil_r; reflexivity.
Qed.
End Position.
End Signs.
