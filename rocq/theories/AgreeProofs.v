(** Two tables that differ in where and how often a rule stands that only translates its text. *)
From Coq Require Import Permutation.
From Coq Require Import List.
From Verif Require Import Base BaseProofs RuleModel TranslationModel TableModel RegexpModel PatternModel HyphenationModel TrieModel TrieProofs
  LoopModel PrimaryProofs CompileModel CompileSpec CompileProofs MainTable ConstraintModel ConstraintSpec ConstraintProofs IndicatorModel EmphSpec
  MainSpec TraceSpec MainPass StepFacts PipelineModel PipelineSpec OrderSpec OrderProofs FrameSpec FrameProofs SaysSpec SimilarProofs.

(** ** Lookup depends only on what is stored at each path *)
Definition same_values compat ctx d (l l' : list ins_args) : Prop := forall p,
  fold_left (fun o a => ins_value compat ctx d a o) (filter (same_path ctx d p) l) None =
  fold_left (fun o a => ins_value compat ctx d a o) (filter (same_path ctx d p) l') None.
Section Entries.
Variable lower : char -> list char.
Variable compat : bool.
Variable ctx : classes.
Variable d : direction.
Variable l l' : list ins_args.
Variable input : str.
Hypothesis W : forall a, In a l -> well_oriented a.
Hypothesis SV : same_values compat ctx d l l'.
Lemma find_revalued n m n' m' :
  trie_insert_all compat ctx d node_empty l = TOk n -> shuffle n n' ->
  trie_insert_all compat ctx d node_empty l' = TOk m -> shuffle m m' ->
  untied compat ctx d lower l input ->
  forall q prev, alike (find_translations lower n' (skipn q input) prev) (find_translations lower m' (skipn q input) prev).
Proof.
  intros E S E' S' U q prev.
  assert (IA : forall l k, trie_insert_all compat ctx d node_empty l = TOk k -> k = build compat ctx d l).
  { clear. intros l k Ek. assert (Hn : all_nonempty d l).
    { intros a Ha Hf. assert (X : ~ all_nonempty d l) by (intros H; apply (H a Ha Hf)). rewrite (insert_all_panic compat ctx d l node_empty X) in Ek. discriminate. }
    rewrite (insert_all_ok compat ctx d l node_empty Hn) in Ek. injection Ek as <-. reflexivity. }
  apply IA in E, E'. subst n m.
  assert (ST : forall p t, path_matches lower p (skipn q input) prev -> (stored n' p t <-> stored m' p t)).
  { intros p t M. rewrite <- (shuffle_stored _ _ S), <- (shuffle_stored _ _ S'). rewrite !stored_value by apply build_wf. rewrite !build_value, SV. reflexivity. }
  intros w. unfold find_translations. rewrite !find_paths_snd, !filter_map_comm. f_equal.
  apply paths_framed; [eapply shuffle_wf; [exact S|apply build_wf]|eapply shuffle_wf; [exact S'|apply build_wf]|exact ST|].
  intros [p t] [p' t'] Hy Hz Py Pz. cbn [fst snd] in *.
  apply find_paths_In in Hy, Hz; [|eapply shuffle_wf; [exact S|apply build_wf]..]. destruct Hy as [Sy My], Hz as [Sz Mz].
  assert (IF : forall p t, stored n' p t -> path_matches lower p (skipn q input) prev -> exists full a,
      in_force compat ctx d l full a /\ applies lower ctx d a (skipn q input) prev /\ t = offer ctx d full a /\ p = ins_path ctx d a).
  { clear - W S. intros p t Hs Hm. apply (shuffle_stored _ _ S), build_stored in Hs. destruct Hs as (full & a & Hc & ->).
    assert (Ia : In a (filter (same_path ctx d p) l)) by (destruct Hc as (k1 & k2 & -> & _); apply in_elt).
    apply filter_In in Ia. destruct Ia as [Ia Ep]. apply same_path_true in Ep. subst p.
    exists full, a. split; [apply chosen_in_force; auto|]. split; [apply path_applies; auto|auto]. }
  destruct (IF p t Sy My) as (f & a & F1 & A1 & -> & ->). destruct (IF p' t' Sz Mz) as (g & b & F2 & A2 & -> & ->).
  apply (U q prev f a g b F1 A1 F2 A2). unfold weighs in Py, Pz. apply Nat.eqb_eq in Py, Pz. congruence.
Qed.
End Entries.

(** ** Tables alike but for one rule *)
(** whatever goes through the tables and does not mind the rule finds the same *)
Definition agree_but (r : rule) (l l' : list rule) : Prop :=
  forall (B : Type) (f : B -> rule -> B), (forall u, f u r = u) -> forall v, fold_left f l v = fold_left f l' v.
Lemma agree_sym r l l' : agree_but r l l' -> agree_but r l' l.
Proof. intros H B f F v. symmetry. apply H, F. Qed.
Lemma agree_trans r l m n : agree_but r l m -> agree_but r m n -> agree_but r l n.
Proof. intros H G B f F v. rewrite (H B f F v). apply G, F. Qed.
Lemma agree_one r a b : agree_but r (a ++ r :: b) (a ++ b).
Proof. intros B f F v. rewrite !fold_left_app. cbn [fold_left]. rewrite F. reflexivity. Qed.
Lemma agree_cons r q l l' : agree_but r l l' -> agree_but r (q :: l) (q :: l').
Proof. intros H B f F v. cbn [fold_left]. apply H, F. Qed.
Lemma agree_filter r p l l' : agree_but r l l' -> agree_but r (filter p l) (filter p l').
Proof.
  assert (E : forall (B : Type) (f : B -> rule -> B) l v, fold_left f (filter p l) v = fold_left (fun u q => if p q then f u q else u) l v).
  { intros B f. induction l0 as [|q k IH]; intros v; cbn; [reflexivity|]. destruct (p q); apply IH. }
  intros H B f F v. rewrite !E. apply H. intros u. destruct (p r); auto.
Qed.
Section Agree.
Variable r : rule.
Variable l l' : list rule.
Hypothesis AG : agree_but r l l'.
Lemma agree_flat {A} (f : rule -> list A) : f r = [] -> flat_map f l = flat_map f l'.
Proof.
  intros E. assert (X : forall k acc, acc ++ flat_map f k = fold_left (fun u q => u ++ f q) k acc).
  { induction k as [|q k IH]; intros acc; cbn; [apply app_nil_r|]. rewrite <- IH, <- app_assoc. reflexivity. }
  rewrite <- (app_nil_l (flat_map f l)), <- (app_nil_l (flat_map f l')), !X. apply AG. intros u. rewrite E. apply app_nil_r.
Qed.
Lemma agree_last {A} (f : rule -> option A) : f r = None -> last_some l f = last_some l' f.
Proof. intros E. unfold last_some. apply AG. intros u. rewrite E. reflexivity. Qed.
Lemma agree_last_rule (f : rule -> option str) : f r = None -> last_rule l f = last_rule l' f.
Proof. intros E. unfold last_rule. apply agree_last. rewrite E. reflexivity. Qed.
Lemma agree_exists f : f r = false -> existsb f l = existsb f l'.
Proof.
  intros E. assert (X : forall k acc, (acc || existsb f k)%bool = fold_left (fun u q => (u || f q)%bool) k acc).
  { induction k as [|q k IH]; intros acc; cbn; [apply Bool.orb_false_r|]. rewrite <- IH, Bool.orb_assoc. reflexivity. }
  rewrite <- (Bool.orb_false_l (existsb f l)), <- (Bool.orb_false_l (existsb f l')), !X. apply AG. intros u. rewrite E. apply Bool.orb_false_r.
Qed.
End Agree.

Section Tables.
Variable is_alphabetic : char -> bool.
Variable compat : bool.
Variable read_dictionary : str -> tres hyph.
Variable d : direction.
Variable x : context.
Variable r : rule.
Variable t : str.
Hypothesis T : translates r = Some t.
Variable rules rules' : list rule.
Hypothesis AG : agree_but r rules rules'.
(** the two have the same rules *)
Hypothesis IN : forall q, In q rules <-> In q rules'.
Ltac quiet := clear - T; destruct r; try discriminate; reflexivity.

Lemma a_scanner : build_scanner x rules = build_scanner x rules'.
Proof. unfold build_scanner, compbrl_triggers. rewrite (agree_flat r _ _ AG) by quiet. reflexivity. Qed.
Lemma a_emph : build_emph x rules = build_emph x rules'.
Proof.
  unfold build_emph. f_equal. assert (EN : emph_name r = None) by quiet.
  assert (E : emph_names rules = emph_names rules') by (unfold emph_names; apply AG; intros u; rewrite EN; reflexivity).
  rewrite E. apply map_ext. intros name. unfold build_emph_class. rewrite !(agree_last r _ _ AG) by (rewrite EN; reflexivity). reflexivity.
Qed.
Lemma a_mid_numeric : mid_numeric rules = mid_numeric rules'.
Proof. unfold mid_numeric. rewrite !(agree_flat r _ _ AG) by quiet. reflexivity. Qed.
Lemma a_indicators o1 o2 : build_indicators compat x rules o1 o2 = build_indicators compat x rules' o1 o2.
Proof.
  unfold build_indicators, build_letter_ind, build_nocont_ind, contraction_trie, contractions, build_comp_ind, build_numeric_ind, build_caps_ind, extra_numeric.
  rewrite a_emph, a_mid_numeric.
  repeat rewrite (agree_last_rule r _ _ AG) by quiet. repeat rewrite (agree_last r _ _ AG) by quiet. repeat rewrite (agree_flat r _ _ AG) by quiet. reflexivity.
Qed.
Lemma a_letter_dots : letter_dots d rules = letter_dots d rules'.
Proof. unfold letter_dots. clear IN. destruct d; [reflexivity|]. apply (agree_flat r _ _ AG). quiet. Qed.
Lemma a_is_letter_dots dots : is_letter_dots d rules dots = is_letter_dots d rules' dots.
Proof. unfold is_letter_dots. rewrite a_letter_dots. reflexivity. Qed.
Lemma a_backward_dots f : f r = None -> backward_dots d rules f = backward_dots d rules' f.
Proof.
  intros E. unfold backward_dots. destruct (is_backward d); [|reflexivity]. rewrite (agree_last r _ _ AG) by (rewrite E; reflexivity).
  apply last_some_same. intros y. destruct (f y); [|reflexivity]. rewrite a_is_letter_dots. reflexivity.
Qed.
Lemma a_constrainers : build_constrainers is_alphabetic read_dictionary d x rules = build_constrainers is_alphabetic read_dictionary d x rules'.
Proof.
  unfold build_constrainers, build_numeric, build_caps, build_number, build_hyphen, build_punct, has_punct, extra_numeric.
  rewrite a_mid_numeric. rewrite !a_backward_dots by quiet. repeat rewrite (agree_last r _ _ AG) by quiet.
  assert (EL : letter_cells is_alphabetic d x rules = letter_cells is_alphabetic d x rules').
  { unfold letter_cells. destruct (is_backward d); [|reflexivity]. apply sort_dedup_ext. intros c. rewrite !in_app_iff, !in_flat_map.
    split; (intros [H|(q & I & H)]; [left; exact H|right; exists q; split; [apply IN, I|exact H]]). }
  rewrite EL, (agree_exists r _ _ AG) by quiet. reflexivity.
Qed.
Lemma a_litdigits : litdigit_chars d rules = litdigit_chars d rules'.
Proof. unfold litdigit_chars. clear IN. destruct d; [|reflexivity]. apply (agree_flat r _ _ AG). quiet. Qed.
Lemma a_others y : other_characters d x rules y = other_characters d x rules' y.
Proof. destruct y; cbn [other_characters]; rewrite ?a_litdigits; reflexivity. Qed.
Lemma a_chars c : character_lookup d x rules compat c = character_lookup d x rules' compat c.
Proof.
  unfold character_lookup. assert (E : character_table d x rules = character_table d x rules'); [|rewrite E; reflexivity].
  unfold character_table. destruct (is_backward d); [reflexivity|]. rewrite (agree_flat r _ _ AG) by quiet. f_equal.
  assert (E : forall y, char_pieces (other_characters d x rules) y = char_pieces (other_characters d x rules') y) by (intros y; unfold char_pieces; rewrite a_others; reflexivity).
  rewrite (flat_map_same _ _ _ E). apply (agree_flat r _ _ AG). quiet.
Qed.
Lemma a_digits : digit_table d rules = digit_table d rules'.
Proof.
  unfold digit_table. f_equal. rewrite (flat_map_same _ (digit_entries d rules')).
  - apply (agree_flat r _ _ AG). quiet.
  - intros y. destruct y; try reflexivity; cbn [digit_entries]; rewrite a_is_letter_dots; reflexivity.
Qed.
Lemma a_entries_of y : main_entries_of d x rules y = main_entries_of d x rules' y.
Proof.
  unfold main_entries_of, character_entries, indicator_entries. rewrite a_others. f_equal. f_equal. destruct y; try reflexivity; rewrite a_is_letter_dots; reflexivity.
Qed.

(** ** The main pass *)
Variable lower upper : char -> list char.
Variable sort : list event -> res (list event).
Hypothesis SR : sort_rearranges sort.
Notation untied := (untied compat (trie_ctx d x) d lower).
Notation values := (same_values compat (trie_ctx d x) d).
Lemma main_agree m1 m2 input spans :
  values (main_entries d x rules) (main_entries d x rules') -> values (nocross_entries x rules) (nocross_entries x rules') ->
  values (comp6_entries x rules) (comp6_entries x rules') ->
  main_built is_alphabetic compat read_dictionary d x rules m1 -> main_built is_alphabetic compat read_dictionary d x rules' m2 ->
  untied (main_entries d x rules) input -> untied (nocross_entries x rules) input -> untied (comp6_entries x rules) input ->
  main_trace lower upper sort m1 input spans = main_trace lower upper sort m2 input spans.
Proof.
  intros V1 V2 V3 B1 B2 T1 T2 T3. destruct B1 as [R1 I1 C1 S1]. destruct B2 as [R2 I2 C2 S2].
  rewrite <- a_scanner in S2. rewrite <- a_constrainers in C2.
  assert (I2' : indicators_built compat x rules (mt_indicators m2)).
  { destruct I2 as (o1 & o2 & i0 & O1 & O2 & EB & R). rewrite <- a_indicators in EB. exists o1, o2, i0. auto. }
  unfold main_trace, enriched. rewrite S1, S2. destruct (match build_scanner x rules with Some k => enrich k input spans | None => Ok spans end) as [sp| |]; cbn [bind]; auto.
  rewrite <- (indications_same lower sort compat x rules _ _ input sp I1 I2').
  destruct (indications_of lower sort (mt_indicators m1) input sp) as [ind| |] eqn:EI; cbn [bind]; auto.
  rewrite C1, C2. destruct (limits_of (build_constrainers is_alphabetic read_dictionary d x rules) input sp) as [lim| |]; cbn [bind]; auto.
  pose proof (compiled_ok compat read_dictionary d x _ lower _ R1) as OK1.
  pose proof (compiled_ok compat read_dictionary d x _ lower _ R2) as OK2.
  destruct R1 as (q1 & Q1 & A1 & A2 & A3 & E1 & E2 & E3 & E4 & E5 & E6 & E7).
  destruct R2 as (q2 & Q2 & B1 & B2 & B3 & F1 & F2 & F3 & F4 & F5 & F6 & F7).
  destruct (compile_spec _ _ _ _ _ _ Q1) as (J1 & J2 & J3 & J4 & J5 & J6 & J7 & J8 & J9 & J10).
  destruct (compile_spec _ _ _ _ _ _ Q2) as (K1 & K2 & K3 & K4 & K5 & K6 & K7 & K8 & K9 & K10).
  assert (IO : indications_ok ind).
  { assert (SO : sort_returns sort (emph_events (in_emph (mt_indicators m1)) 0 input sp)).
    { unfold sort_returns. destruct (Nat.le_gt_cases (length (emph_events (in_emph (mt_indicators m1)) 0 input sp)) 20) as [L|L]; [auto|].
      right. unfold indications_of, emph_precompute, event_sort in EI.
      destruct (Nat.leb_spec (length (emph_events (in_emph (mt_indicators m1)) 0 input sp)) 20) as [L'|L']; [lia|].
      destruct (sort (emph_events (in_emph (mt_indicators m1)) 0 input sp)) as [l'| |] eqn:El; try discriminate. exists l'. split; [reflexivity|].
      apply SR, El. }
    destruct (indications_spec compat x rules (mt_indicators m1) lower sort input sp I1 SO) as (em & caps & ind' & _ & _ & E' & _ & _ & RS).
    rewrite EI in E'. injection E' as <-. intros l u Hl Hu. apply (rule_sign_fields rules). eapply RS; eauto. }
  apply run_same; auto.
  - rewrite E2, F2, J5, K5. apply (agree_flat r _ _ AG). quiet.
  - rewrite E3, F3, J6, K6. apply (agree_flat r _ _ AG). quiet.
  - congruence.
  - rewrite E4, F4, J7, K7. apply a_digits.
  - intros c. rewrite E1, F1, J4, K4. apply a_chars.
  - rewrite E5, F5, J8, K8. unfold undefined_dots. apply AG. quiet.
  - congruence.
  - eapply (find_revalued lower compat (trie_ctx d x) d (main_entries d x rules) _ input); [|exact V1|exact J1|exact A1|exact K1|exact B1|exact T1].
    intros e He. apply (main_oriented d x rules e He).
  - eapply (find_revalued lower compat (trie_ctx d x) d (nocross_entries x rules) _ input); [|exact V2|exact J2|exact A2|exact K2|exact B2|exact T2].
    intros e He. apply (nocross_oriented x rules e He).
  - eapply (find_revalued lower compat (trie_ctx d x) d (comp6_entries x rules) _ input); [|exact V3|exact J3|exact A3|exact K3|exact B3|exact T3].
    intros e He. apply (comp6_oriented x rules e He).
Qed.
End Tables.
