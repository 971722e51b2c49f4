(** Signs are put in and leave the pieces of the text alone. *)
From Coq Require Import Permutation.
From Verif Require Import Base BaseProofs RuleModel TranslationModel TableModel RegexpModel PatternModel HyphenationModel TrieModel
  LoopModel CompileModel CompileSpec CompileProofs MainTable ConstraintModel ConstraintSpec ConstraintProofs IndicatorModel EmphSpec PrimaryProofs
  MainSpec TraceSpec MainPass SetupSpec SetupProofs OrderSpec OrderProofs TraceProofs FrameProofs AsideSpec.

Section Run.
Variable lower upper : char -> list char.
Variable p : ptable.
Variable lim : pos_flags.
Variable input : str.
Variable ind1 ind2 : list (list resolved).
Definition all_signs (ind : list (list resolved)) : Prop := forall l t, In l ind -> In t l -> is_sign t = true.
Hypothesis S1 : all_signs ind1.
Hypothesis S2 : all_signs ind2.
Lemma signs_aside ind s : all_signs ind -> text_pieces (indicated ind s) = [].
Proof.
  intros H. unfold indicated. destruct (match s_last s with Some q => Nat.eqb q (s_pos s) | None => false end); [reflexivity|].
  assert (A : forall t, In t (nth (s_pos s) ind []) -> is_sign t = true).
  { intros t Ht. destruct (nth_in_or_default (s_pos s) ind []) as [I|E]; [eapply H; eauto|]. rewrite E in Ht. destruct Ht. }
  induction (nth (s_pos s) ind []) as [|t l IH]; [reflexivity|]. unfold text_pieces. cbn [filter]. rewrite (A t (or_introl eq_refl)). cbn [negb].
  apply IH. intros u Hu. apply A. right. exact Hu.
Qed.
(** but for what has been put out *)
Definition level (a b : pstate) : Prop :=
  s_rest a = s_rest b /\ s_delayed a = s_delayed b /\ s_env a = s_env b /\ s_prev a = s_prev b /\ s_seen a = s_seen b /\
  s_pos a = s_pos b /\ s_last a = s_last b /\ text_pieces (s_out a) = text_pieces (s_out b).
Definition level_step (a b : res pstep) : Prop :=
  match a, b with
  | Ok (PGo s), Ok (PGo s') => level s s'
  | Ok (PStop o), Ok (PStop o') => text_pieces o = text_pieces o'
  | Panic, Panic | OutOfFuel, OutOfFuel => True
  | _, _ => False
  end.
Lemma pieces_put a b o o' l : text_pieces a = text_pieces b -> text_pieces o = [] -> text_pieces o' = [] -> text_pieces ((a ++ o) ++ l) = text_pieces ((b ++ o') ++ l).
Proof. intros E1 E2 E3. rewrite !text_pieces_app, E1, E2, E3. reflexivity. Qed.
Lemma step_level a b : level a b -> level_step (primary_step lower upper p ind1 lim input a) (primary_step lower upper p ind2 lim input b).
Proof.
  destruct a as [r1 d1 e1 p1 n1 q1 l1 o1], b as [r2 d2 e2 p2 n2 q2 l2 o2]. unfold level. cbn [s_rest s_delayed s_env s_prev s_seen s_pos s_last s_out].
  intros (-> & -> & -> & -> & -> & -> & -> & EO). set (a := mk_pstate r2 d2 e2 p2 n2 q2 l2 o1). set (b := mk_pstate r2 d2 e2 p2 n2 q2 l2 o2).
  pose proof (signs_aside ind1 a S1) as A1. pose proof (signs_aside ind2 b S2) as A2.
  assert (X : forall l, text_pieces ((o1 ++ indicated ind1 a) ++ l) = text_pieces ((o2 ++ indicated ind2 b) ++ l)) by (intros l; apply pieces_put; auto).
  assert (Y : text_pieces (o1 ++ indicated ind1 a) = text_pieces (o2 ++ indicated ind2 b)) by (specialize (X []); rewrite !app_nil_r in X; exact X).
  unfold primary_step. change (primary_candidates lower p lim input a) with (primary_candidates lower p lim input b).
  cbn [s_rest s_delayed s_env s_prev s_seen s_pos s_last s_out a b]. fold a b.
  destruct (primary_candidates lower p lim input b) as [[cs dl]| |]; cbn [bind]; [|exact Logic.I|exact Logic.I].
  destruct (match max_weight (nocross_candidates lower p lim r2 p2 q2) with Some n => match max_weight (unseen n2 cs) with Some t => if Nat.leb (r_weight t) (r_weight n) then Some n else None | None => Some n end | None => None end) as [n|].
  - destruct (Nat.eqb (r_length n) 0); [exact Logic.I|]. cbn. unfold level. cbn. auto 10.
  - destruct (max_weight (unseen n2 cs)) as [t|].
    + destruct (env_apply_all e2 (r_effects t)); cbn [bind level_step]; [|exact Logic.I|exact Logic.I].
      destruct (Nat.eqb (r_length t) 0); unfold level; cbn; auto 10.
    + destruct r2 as [|c r]; [cbn; exact Y|]. destruct (fallback_piece p c); cbn [bind level_step]; [|exact Logic.I|exact Logic.I]. unfold level; cbn; auto 10.
Qed.
Definition same_text (a b : res (list resolved)) : Prop :=
  match a, b with
  | Ok o, Ok o' => text_pieces o = text_pieces o'
  | Panic, Panic | OutOfFuel, OutOfFuel => True
  | _, _ => False
  end.
Lemma loop_level fuel : forall a b, level a b -> same_text (primary_loop lower upper p ind1 lim input fuel a) (primary_loop lower upper p ind2 lim input fuel b).
Proof.
  induction fuel as [|fuel IH]; intros a b L; [exact Logic.I|]. cbn [primary_loop]. pose proof (step_level a b L) as SL.
  destruct (primary_step lower upper p ind1 lim input a) as [[s|o]| |], (primary_step lower upper p ind2 lim input b) as [[s'|o']| |]; cbn in SL; try contradiction; cbn [bind]; auto.
Qed.
Lemma run_level : same_text (primary_run lower upper p ind1 lim input) (primary_run lower upper p ind2 lim input).
Proof. apply loop_level. unfold level. auto 10. Qed.
End Run.

(** ** Marked texts *)
Section Marked.
Variable is_alphabetic : char -> bool.
Variable compat : bool.
Variable read_dictionary : str -> tres hyph.
Variable d : direction.
Variable x : context.
Variable rules : list rule.
Variable lower upper : char -> list char.
Variable sort : list event -> res (list event).
Hypothesis SR : sort_rearranges sort.
Variable m : main_table.
Hypothesis B : main_built is_alphabetic compat read_dictionary d x rules m.

Lemma ind_all_signs input sp ind : indications_of lower sort (mt_indicators m) input sp = Ok ind -> all_signs ind.
Proof.
  intros EI. assert (SO : sort_returns sort (emph_events (in_emph (mt_indicators m)) 0 input sp)).
  { unfold sort_returns. destruct (Nat.le_gt_cases (length (emph_events (in_emph (mt_indicators m)) 0 input sp)) 20) as [L|L]; [auto|].
    right. unfold indications_of, emph_precompute, event_sort in EI.
    destruct (Nat.leb_spec (length (emph_events (in_emph (mt_indicators m)) 0 input sp)) 20) as [L'|L']; [lia|].
    destruct (sort (emph_events (in_emph (mt_indicators m)) 0 input sp)) as [l'| |] eqn:El; try discriminate. exists l'. split; [reflexivity|].
    apply SR, El. }
  destruct (indications_spec compat x rules (mt_indicators m) lower sort input sp (mb_indicators _ _ _ _ _ _ _ B) SO) as (em & caps & ind' & _ & _ & E' & _ & _ & RS).
  rewrite EI in E'. injection E' as <-. intros l t Hl Ht. apply (sign_rule rules). eapply RS; eauto.
Qed.
Lemma limits_comp k input sp1 sp2 : (forall q, in_comp_span sp1 q <-> in_comp_span sp2 q) -> limits_of k input sp1 = limits_of k input sp2.
Proof.
  intros H. unfold limits_of. destruct (optional (kc_caps k) _ _); cbn [bind]; auto. destruct (optional (kc_number k) _ _); cbn [bind]; auto.
  destruct (optional (kc_hyphen k) _ _); cbn [bind]; auto. f_equal. apply map_ext_in. intros q Hq. apply in_seq in Hq. f_equal.
  apply Bool.eq_true_iff_eq. rewrite !comp_mark_spec by lia. apply H.
Qed.
Lemma main_marked input s1 s2 out1 out2 : (forall q, in_comp_span s1 q <-> in_comp_span s2 q) ->
  main_trace lower upper sort m input s1 = Ok out1 -> main_trace lower upper sort m input s2 = Ok out2 -> text_pieces out1 = text_pieces out2.
Proof.
  intros H. unfold main_trace. destruct (enriched m input s1) as [sp1| |] eqn:E1; try discriminate. destruct (enriched m input s2) as [sp2| |] eqn:E2; try discriminate. cbn [bind].
  destruct (indications_of lower sort (mt_indicators m) input sp1) as [ind1| |] eqn:I1; try discriminate. destruct (indications_of lower sort (mt_indicators m) input sp2) as [ind2| |] eqn:I2; try discriminate. cbn [bind].
  assert (HC : forall q, in_comp_span sp1 q <-> in_comp_span sp2 q).
  { intros q. destruct (marked_enriched _ _ _ _ _ _ _ B input s1 sp1 E1) as [_ M1]. destruct (marked_enriched _ _ _ _ _ _ _ B input s2 sp2 E2) as [_ M2].
    rewrite (marked_positions x rules input s1 sp1 M1), (marked_positions x rules input s2 sp2 M2). unfold in_computer_braille. rewrite H. reflexivity. }
  rewrite (limits_comp _ _ sp1 sp2 HC). destruct (limits_of (mt_constrainers m) input sp2) as [lim| |]; try discriminate. cbn [bind]. intros R1 R2.
  pose proof (run_level lower upper (mt_rules m) lim input ind1 ind2 (ind_all_signs _ _ _ I1) (ind_all_signs _ _ _ I2)) as R. rewrite R1, R2 in R. exact R.
Qed.

(** spans the table has no rules for *)
Variable keep : span -> bool.
Hypothesis KC : forall s, keep s = false -> sp_class s <> computer_braille /\ forall r, In r rules -> emph_name r <> Some (sp_class s).
Lemma scan_kept k input fuel : forall pos spans,
  scan_loop k input fuel pos (filter keep spans) = do l <- scan_loop k input fuel pos spans; Ok (filter keep l).
Proof.
  induction fuel as [|fuel IH]; intros pos spans; [reflexivity|]. cbn [scan_loop]. destruct (Nat.leb (length input) pos); [reflexivity|].
  destruct (existsb (starts_with (skipn pos input)) (sc_triggers k)); [|apply IH].
  set (s := mk_span computer_braille _ _). assert (Ks : keep s = true).
  { destruct (keep s) eqn:E; [reflexivity|]. destruct (KC s E) as [N _]. destruct (N eq_refl). }
  assert (EX : existsb (span_eqb s) (filter keep spans) = existsb (span_eqb s) spans).
  { apply Bool.eq_true_iff_eq. rewrite !existsb_exists. split; intros (y & Hy & Ey).
    - apply filter_In in Hy. exists y. split; [apply Hy|exact Ey].
    - apply span_eqb_spec in Ey as Ey'. subst y. exists s. split; [apply filter_In; auto|exact Ey]. }
  rewrite EX. destruct (existsb (span_eqb s) spans); [apply IH|]. rewrite <- IH. f_equal. rewrite filter_app. cbn [filter]. rewrite Ks. reflexivity.
Qed.
Lemma existsb_kept (f : span -> bool) l : (forall s, keep s = false -> f s = false) -> existsb f (filter keep l) = existsb f l.
Proof. intros H. induction l as [|s l IH]; [reflexivity|]. cbn [filter existsb]. destruct (keep s) eqn:E; cbn [existsb]; rewrite IH; [reflexivity|]. rewrite (H s E). reflexivity. Qed.
Lemma flat_map_kept {A} (f : span -> list A) l : (forall s, keep s = false -> f s = []) -> flat_map f (filter keep l) = flat_map f l.
Proof. intros H. induction l as [|s l IH]; [reflexivity|]. cbn [filter flat_map]. destruct (keep s) eqn:E; cbn [flat_map]; rewrite IH; [reflexivity|]. rewrite (H s E). reflexivity. Qed.
Lemma names_of : forall n, In n (emph_names rules) -> exists r, In r rules /\ emph_name r = Some n.
Proof.
  unfold emph_names. enough (H : forall l0, (forall n, In n l0 -> exists r, In r rules /\ emph_name r = Some n) -> forall rs, incl rs rules -> forall n,
    In n (fold_left (fun l r => match emph_name r with Some n => if existsb (str_eqb n) l then l else l ++ [n] | None => l end) rs l0) -> exists r, In r rules /\ emph_name r = Some n).
  { intros n Hn. eapply (H []); [intros ? []| |exact Hn]. intros y Hy. exact Hy. }
  intros l0 H0 rs. revert l0 H0. induction rs as [|r rs IH]; intros l0 H0 I n Hn; [apply H0, Hn|]. cbn [fold_left] in Hn. eapply IH; [|intros y Hy; apply I; right; exact Hy|exact Hn].
  intros y Hy. destruct (emph_name r) as [n'|] eqn:E; [|apply H0, Hy]. destruct (existsb (str_eqb n') l0); [apply H0, Hy|].
  apply in_app_iff in Hy. destruct Hy as [Hy|[<-|[]]]; [apply H0, Hy|]. exists r. split; [apply I; left; reflexivity|exact E].
Qed.
Lemma runs_ext f g n : (forall q, f q = g q) -> forall fuel open, runs_from f fuel n open = runs_from g fuel n open.
Proof. intros H fuel. revert n. induction fuel as [|fuel IH]; intros n open; cbn [runs_from]; [reflexivity|]. rewrite H. destruct (g n), open; rewrite ?IH; reflexivity. Qed.
Lemma emph_kept us : (forall u, In u us -> In (em_name u) (emph_names rules)) -> forall index input sp,
  emph_events us index input (filter keep sp) = emph_events us index input sp.
Proof.
  induction us as [|u us IH]; intros H index input sp; [reflexivity|]. cbn [emph_events]. rewrite IH by (intros v Hv; apply H; right; exact Hv). f_equal.
  unfold emph_emit, active_runs. f_equal. apply runs_ext. intros q. unfold active_at. f_equal. apply existsb_kept. intros s Es.
  destruct (str_eqb (sp_class s) (em_name u)) eqn:E; [|reflexivity]. apply str_eqb_eq in E. destruct (KC s Es) as [_ N].
  destruct (names_of (em_name u) (H u (or_introl eq_refl))) as (r & Hr & Er). destruct (N r Hr). congruence.
Qed.
Lemma main_kept input spans : main_trace lower upper sort m input (filter keep spans) = main_trace lower upper sort m input spans.
Proof.
  unfold main_trace. assert (EN : enriched m input (filter keep spans) = do l <- enriched m input spans; Ok (filter keep l)).
  { unfold enriched. destruct (mt_scanner m) as [k|]; [|reflexivity]. apply scan_kept. }
  rewrite EN. destruct (enriched m input spans) as [sp| |]; cbn [bind]; auto.
  assert (EI : indications_of lower sort (mt_indicators m) input (filter keep sp) = indications_of lower sort (mt_indicators m) input sp).
  { unfold indications_of, emph_precompute. rewrite emph_kept.
    - destruct (event_sort sort (emph_events (in_emph (mt_indicators m)) 0 input sp)); cbn [bind]; auto.
      destruct (match in_caps (mt_indicators m) with Some u => caps_precompute u input | None => Ok [] end); cbn [bind]; auto.
      f_equal. f_equal. unfold opt_placed. destruct (in_comp (mt_indicators m)); [|reflexivity]. unfold comp_precompute. f_equal. apply flat_map_kept.
      intros s Es. destruct (str_eqb (sp_class s) computer_braille) eqn:E; [|reflexivity]. apply str_eqb_eq in E. destruct (KC s Es) as [N _]. contradiction.
    - intros u Hu. destruct (mb_indicators _ _ _ _ _ _ _ B) as (o1 & o2 & i0 & _ & _ & EB & _ & EE & _). rewrite EE in Hu.
      unfold build_indicators in EB. destruct (build_letter_ind _ _ _ _); try discriminate. destruct (build_nocont_ind _ _ _ _); try discriminate. injection EB as <-.
      cbn [in_emph] in Hu. unfold build_emph in Hu. apply filter_In in Hu. destruct Hu as [Hu _]. apply in_map_iff in Hu. destruct Hu as (n & <- & Hn). exact Hn. }
  rewrite EI. destruct (indications_of lower sort (mt_indicators m) input sp); cbn [bind]; auto.
  rewrite (limits_comp _ input (filter keep sp) sp); [reflexivity|]. intros q. unfold in_comp_span. split; intros (s & H1 & H2 & H3).
  - apply filter_In in H1. exists s. split; [apply H1|auto].
  - exists s. split; [apply filter_In; split; [exact H1|]|auto]. destruct (keep s) eqn:E; [reflexivity|]. destruct (KC s E) as [N _]. contradiction.
Qed.
End Marked.

(** ** Tables with and without a rule that makes no pieces of the text *)
Section Table.
Variable is_alphabetic : char -> bool.
Variable compat : bool.
Variable read_dictionary : str -> tres hyph.
Variable d : direction.
Variable x : context.
Variable a b : list rule.
Variable r : rule.
Notation rules := (a ++ b).
Notation rules' := (a ++ r :: b).
Hypothesis N : ignored r = true \/ only_signs r = true /\ (d = Forward \/ read_backward r = false).

Lemma fold_skip (step : builder -> rule -> tres builder) : (forall c, step c r = TOk c) -> forall l c, compile_fold step c (l ++ r :: b) = compile_fold step c (l ++ b).
Proof. intros H l. induction l as [|q l IH]; intros c; cbn [app compile_fold]; [rewrite H; reflexivity|]. destruct (step c q); cbn [tbind]; auto. Qed.
Lemma fold_ext (f g : builder -> rule -> tres builder) l : (forall c q, f c q = g c q) -> forall c, compile_fold f c l = compile_fold g c l.
Proof. intros H. induction l as [|q l IH]; intros c; cbn [compile_fold]; [reflexivity|]. rewrite H. destruct (g c q); cbn [tbind]; auto. Qed.
Lemma letter_dots_aside : letter_dots d rules' = letter_dots d rules.
Proof. unfold letter_dots. destruct d; [reflexivity|]. apply flat_map_skip. destruct r; try reflexivity; destruct N as [N'|[N' _]]; discriminate N'. Qed.
Lemma is_letter_aside dots : is_letter_dots d rules' dots = is_letter_dots d rules dots.
Proof. unfold is_letter_dots. rewrite letter_dots_aside. reflexivity. Qed.
Lemma litdigits_aside : litdigit_chars d rules' = litdigit_chars d rules.
Proof. unfold litdigit_chars. destruct d; [|reflexivity]. apply flat_map_skip. destruct r; try reflexivity; destruct N as [N'|[N' _]]; discriminate N'. Qed.
Lemma compile_aside : primary_compile compat read_dictionary d x rules' = primary_compile compat read_dictionary d x rules.
Proof.
  unfold primary_compile. rewrite (fold_skip (compile_step1 compat d x)).
  2: { intros c. destruct r; try reflexivity; destruct N as [N'|[N' _]]; discriminate N'. }
  destruct (compile_fold (compile_step1 compat d x) builder_new (a ++ b)) as [c| |]; cbn [tbind]; auto.
  rewrite (fold_skip (compile_step2 compat read_dictionary d x rules')).
  2: { intros c0. unfold compile_step2, backward_indicator. destruct N as [N'|[N' O]]; (destruct r; try discriminate N'; try reflexivity);
       (destruct O as [-> |O]; [reflexivity|discriminate O]). }
  rewrite (fold_ext _ (compile_step2 compat read_dictionary d x rules)); [reflexivity|].
  intros c0 q. destruct q; try reflexivity; cbn [compile_step2]; unfold backward_indicator, digit_override; rewrite ?litdigits_aside, ?is_letter_aside; try reflexivity.
Qed.
Lemma backward_dots_aside f : d = Forward \/ f r = None -> backward_dots d rules' f = backward_dots d rules f.
Proof.
  unfold backward_dots. intros [-> |E]; [reflexivity|]. destruct (is_backward d); [|reflexivity]. rewrite last_some_skip by (rewrite E; reflexivity).
  apply last_some_same. intros y. destruct (f y); [|reflexivity]. rewrite is_letter_aside. reflexivity.
Qed.
Lemma constrainers_aside : build_constrainers is_alphabetic read_dictionary d x rules' = build_constrainers is_alphabetic read_dictionary d x rules.
Proof.
  unfold build_constrainers, build_numeric, build_caps, build_number, build_hyphen, build_punct, has_punct, extra_numeric, mid_numeric.
  assert (BD : forall f : rule -> option str, (read_backward r = false -> f r = None) -> backward_dots d rules' f = backward_dots d rules f).
  { intros f H. apply backward_dots_aside. destruct N as [N'|[_ [O|O]]]; [right; apply H; destruct r; try discriminate N'; reflexivity|left; exact O|right; apply H, O]. }
  rewrite !BD by (destruct r; intros O; try discriminate O; reflexivity).
  rewrite !flat_map_skip by (destruct N as [N'|[N' _]]; destruct r; try discriminate N'; reflexivity).
  rewrite !last_some_skip by (destruct N as [N'|[N' _]]; destruct r; try discriminate N'; reflexivity).
  assert (EL : letter_cells is_alphabetic d x rules' = letter_cells is_alphabetic d x rules).
  { unfold letter_cells. destruct (is_backward d); [|reflexivity]. f_equal. f_equal. apply flat_map_skip. destruct N as [N'|[N' _]]; destruct r; try discriminate N'; reflexivity. }
  rewrite EL. rewrite !existsb_app. cbn [existsb].
  assert (EP : forall o, (match r with RPrepunc chars _ _ | RPostpunc chars _ _ => forallb (cls_has (x_chars x) CPunctuation) chars | _ => false end || o)%bool = o)
    by (intros o; destruct N as [N'|[N' _]]; destruct r; try discriminate N'; reflexivity).
  rewrite EP. reflexivity.
Qed.
Lemma scanner_aside : build_scanner x rules' = build_scanner x rules.
Proof. unfold build_scanner, compbrl_triggers. rewrite flat_map_skip by (destruct N as [N'|[N' _]]; destruct r; try discriminate N'; reflexivity). reflexivity. Qed.
(** an unknown opcode makes no signs, either *)
Lemma indicators_aside o1 o2 : ignored r = true -> build_indicators compat x rules' o1 o2 = build_indicators compat x rules o1 o2.
Proof.
  intros IG. assert (EE : build_emph x rules' = build_emph x rules).
  { unfold build_emph. assert (EN : emph_name r = None) by (destruct r; try discriminate IG; reflexivity).
    assert (E : emph_names rules' = emph_names rules) by (unfold emph_names; rewrite !fold_left_app; cbn [fold_left]; rewrite EN; reflexivity).
    f_equal. rewrite E. apply map_ext. intros name. unfold build_emph_class. rewrite !last_some_skip by (rewrite EN; reflexivity). reflexivity. }
  unfold build_indicators, build_letter_ind, build_nocont_ind, contraction_trie, contractions, build_comp_ind, build_numeric_ind, build_caps_ind, extra_numeric, mid_numeric.
  rewrite EE.
  repeat rewrite last_rule_skip by (destruct r; try discriminate IG; reflexivity).
  repeat rewrite last_some_skip by (destruct r; try discriminate IG; reflexivity).
  repeat rewrite flat_map_skip by (destruct r; try discriminate IG; reflexivity). reflexivity.
Qed.

Variable lower upper : char -> list char.
Variable sort : list event -> res (list event).
Hypothesis SR : sort_rearranges sort.
Notation untied := (untied compat (trie_ctx d x) d lower).
(** with the rule or without, the pieces of the text are the same *)
Lemma main_aside m m' input s1 s2 out out' :
  main_built is_alphabetic compat read_dictionary d x rules m -> main_built is_alphabetic compat read_dictionary d x rules' m' ->
  untied (main_entries d x rules) input -> untied (nocross_entries x rules) input -> untied (comp6_entries x rules) input ->
  (forall q, in_comp_span s1 q <-> in_comp_span s2 q) ->
  main_trace lower upper sort m input s1 = Ok out -> main_trace lower upper sort m' input s2 = Ok out' -> text_pieces out = text_pieces out'.
Proof.
  intros B1 B2 T1 T2 T3 H. unfold main_trace.
  destruct (enriched m input s1) as [sp1| |] eqn:E1; try discriminate. destruct (enriched m' input s2) as [sp2| |] eqn:E2; try discriminate. cbn [bind].
  destruct (indications_of lower sort (mt_indicators m) input sp1) as [ind1| |] eqn:I1; try discriminate. destruct (indications_of lower sort (mt_indicators m') input sp2) as [ind2| |] eqn:I2; try discriminate. cbn [bind].
  assert (HC : forall q, in_comp_span sp1 q <-> in_comp_span sp2 q).
  { intros q. unfold enriched in E2. rewrite (mb_scanner _ _ _ _ _ _ _ B2), scanner_aside, <- (mb_scanner _ _ _ _ _ _ _ B1) in E2. change (enriched m input s2 = Ok sp2) in E2.
    destruct (marked_enriched _ _ _ _ _ _ _ B1 input s1 sp1 E1) as [_ M1]. destruct (marked_enriched _ _ _ _ _ _ _ B1 input s2 sp2 E2) as [_ M2].
    rewrite (marked_positions x rules input s1 sp1 M1), (marked_positions x rules input s2 sp2 M2). unfold in_computer_braille. rewrite H. reflexivity. }
  rewrite (mb_constrainers _ _ _ _ _ _ _ B1), (mb_constrainers _ _ _ _ _ _ _ B2), constrainers_aside, (limits_comp _ _ sp1 sp2 HC).
  destruct (limits_of _ input sp2) as [lim| |]; try discriminate. cbn [bind]. intros R1 R2.
  pose proof (ind_all_signs is_alphabetic compat read_dictionary d x _ lower sort SR m B1 input sp1 ind1 I1) as G1.
  pose proof (ind_all_signs is_alphabetic compat read_dictionary d x _ lower sort SR m' B2 input sp2 ind2 I2) as G2.
  pose proof (run_level lower upper (mt_rules m) lim input ind1 ind2 G1 G2) as R.
  enough (RS : primary_run lower upper (mt_rules m) ind2 lim input = primary_run lower upper (mt_rules m') ind2 lim input) by (rewrite RS, R1, R2 in R; exact R).
  pose proof (compiled_ok compat read_dictionary d x _ lower _ (mb_rules _ _ _ _ _ _ _ B1)) as OK1.
  pose proof (compiled_ok compat read_dictionary d x _ lower _ (mb_rules _ _ _ _ _ _ _ B2)) as OK2.
  assert (IO : indications_ok ind2).
  { assert (SO : sort_returns sort (emph_events (in_emph (mt_indicators m')) 0 input sp2)).
    { unfold sort_returns. destruct (Nat.le_gt_cases (length (emph_events (in_emph (mt_indicators m')) 0 input sp2)) 20) as [L|L]; [auto|].
      right. unfold indications_of, emph_precompute, event_sort in I2.
      destruct (Nat.leb_spec (length (emph_events (in_emph (mt_indicators m')) 0 input sp2)) 20) as [L'|L']; [lia|].
      destruct (sort (emph_events (in_emph (mt_indicators m')) 0 input sp2)) as [l'| |] eqn:El; try discriminate. exists l'. split; [reflexivity|].
      apply SR, El. }
    destruct (indications_spec compat x rules' (mt_indicators m') lower sort input sp2 (mb_indicators _ _ _ _ _ _ _ B2) SO) as (em & caps & ind' & _ & _ & E' & _ & _ & RS).
    rewrite I2 in E'. injection E' as <-. intros l t Hl Ht. apply (rule_sign_fields rules'). eapply RS; eauto. }
  destruct B1 as [Q1 _ _ _], B2 as [Q2 _ _ _].
  destruct Q1 as (q1 & Q1 & A1 & A2 & A3 & F1 & F2 & F3 & F4 & F5 & F6 & F7).
  destruct Q2 as (q2 & Q2 & B1 & B2 & B3 & H1 & H2 & H3 & H4 & H5 & H6 & H7). rewrite compile_aside, Q1 in Q2. injection Q2 as <-.
  destruct (compile_spec _ _ _ _ _ _ Q1) as (J1 & J2 & J3 & _).
  apply run_same; try congruence; auto.
  - eapply find_alike; [|exact J1|exact A1|exact B1|exact T1]. intros e He. apply (main_oriented d x rules e He).
  - eapply find_alike; [|exact J2|exact A2|exact B2|exact T2]. intros e He. apply (nocross_oriented x rules e He).
  - eapply find_alike; [|exact J3|exact A3|exact B3|exact T3]. intros e He. apply (comp6_oriented x rules e He).
Qed.
End Table.
