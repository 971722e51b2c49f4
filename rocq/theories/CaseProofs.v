(** Texts that differ only in case: the main pass forward. *)
From Coq Require Import Permutation.
From Verif Require Import Base BaseProofs RuleModel ClassSpec TranslationModel TranslationProofs TableModel TableProofs RegexpModel
  RegexpSpec PatternModel MatchProofs WordSpec TrieModel TrieProofs PropTrie
  HyphenationModel HyphenationProofs LoopModel LoopProofs MultipassProofs PrimaryProofs PrimaryTrace CompileModel CompileSpec
  CompileProofs MainTable ConstraintModel ConstraintSpec ConstraintProofs IndicatorModel IndicatorProofs
  CapsSpec CapsProofs CapsFacts EmphSpec EmphProofs MainSpec StepProofs TraceSpec MainPass FrameSpec DefinitionSpec PropDefinitions
  LocalSpec LocalProofs LocalPass CaseSpec.

Section Related.
Variable lower : char -> list char.
Variable R : char -> char -> Prop.
Hypothesis RL : forall c c', R c c' -> lower c = lower c'.
Definition near (o o' : option char) : Prop := match o, o' with Some c, Some c' => R c c' | None, None => True | _, _ => False end.
(** conditions that hold of both characters or of neither *)
Definition evenly (e : edge) : Prop :=
  match e with ECh _ => True | EStart rc | EEnd rc => forall c c', R c c' -> rc_matches rc (Some c) = rc_matches rc (Some c') end.
Lemma near_rc rc o o' : (forall c c', R c c' -> rc_matches rc (Some c) = rc_matches rc (Some c')) -> near o o' -> rc_matches rc o = rc_matches rc o'.
Proof. intros H N. destruct o, o'; cbn in N; try destruct N; [apply H, N|reflexivity]. Qed.
Lemma near_hd w w' : Forall2 R w w' -> near (hd_error w) (hd_error w').
Proof. destruct 1; cbn; auto. Qed.
Notation find := (find_translations lower).
Lemma find_evenly n : all_edges evenly n -> forall w w' prev prev', Forall2 R w w' -> near prev prev' -> find n w prev = find n w' prev'.
Proof.
  induction n as [t ts IH] using node_ind'. intros A w w' prev prev' F N. inversion A as [t0 ts0 FA]; subst. rewrite !find_unfold. f_equal. f_equal.
  - destruct F as [|c c' w w' H F]; [reflexivity|]. unfold single_lower. rewrite (RL _ _ H). destruct (lower c') as [|y [|]]; try reflexivity.
    clear A N. revert IH FA. induction ts as [|[e ch] r IH2]; intros IH FA; [reflexivity|]. inversion IH as [|? ? I1 I2]; subst. inversion FA as [|? ? [A1 A2] A3]; subst.
    destruct (edge_eqb (ECh y) e); [|apply IH2; assumption]. apply I1; [exact A2|exact F|exact H].
  - clear A. revert IH FA. induction ts as [|[e ch] r IH2]; intros IH FA; [reflexivity|]. inversion IH as [|? ? I1 I2]; subst. inversion FA as [|? ? [A1 A2] A3]; subst.
    cbn [fst snd] in *. destruct e as [c|rc|rc]; [apply IH2; assumption| |].
    + rewrite (IH2 I2 A3). f_equal. rewrite (I1 A2 w w' prev prev' F N), (near_rc rc prev prev' A1 N). reflexivity.
    + rewrite (IH2 I2 A3). f_equal. rewrite (I1 A2 w w' prev prev' F N). pose proof (near_rc rc _ _ A1 (near_hd _ _ F)) as X. unfold str, char in *. rewrite X. reflexivity.
Qed.
Lemma two_nth w w' q : Forall2 R w w' -> near (nth_error w q) (nth_error w' q).
Proof. intros F. revert q. induction F as [|c c' w w' H F IH]; intros [|q]; cbn; auto. Qed.
Lemma two_skip w w' q : Forall2 R w w' -> Forall2 R (skipn q w) (skipn q w').
Proof. intros F. revert q. induction F as [|c c' w w' H F IH]; intros [|q]; cbn; auto. Qed.
Lemma two_first w w' q : Forall2 R w w' -> Forall2 R (firstn q w) (firstn q w').
Proof. intros F. revert q. induction F as [|c c' w w' H F IH]; intros [|q]; cbn; auto. Qed.
Lemma two_app w w' v v' : Forall2 R w w' -> Forall2 R v v' -> Forall2 R (w ++ v) (w' ++ v').
Proof. induction 1; cbn; auto. Qed.
Lemma two_rev w w' : Forall2 R w w' -> Forall2 R (rev w) (rev w').
Proof. induction 1; cbn; [constructor|]. apply two_app; auto. Qed.
Lemma two_length w w' : Forall2 R w w' -> length w = length w'.
Proof. induction 1; cbn; auto. Qed.
(** sets of characters with both or neither *)
Definition even_set (l : list char) : Prop := forall c c', R c c' -> mem c l = mem c' l.
Lemma marks_even u : even_set (nu_digits u) -> even_set (nu_extra u) -> even_set (nu_mid u) -> forall w w', Forall2 R w w' -> forall b,
  numeric_marks u b w = numeric_marks u b w'.
Proof.
  intros H1 H2 H3 w w' F. induction F as [|c c' w w' H F IH]; intros b; [reflexivity|]. cbn [numeric_marks]. rewrite (H1 _ _ H), (H2 _ _ H), (H3 _ _ H), !IH.
  assert (E : match w with y :: _ => mem y (nu_digits u) | [] => false end = match w' with y :: _ => mem y (nu_digits u) | [] => false end) by (destruct F; [reflexivity|auto]).
  unfold str, char in *. rewrite E. reflexivity.
Qed.
Lemma scan_even u : even_set (pc_word u) -> even_set (pc_space u) -> forall w w', Forall2 R w w' -> scan u w = scan u w'.
Proof. intros H1 H2 w w' F. induction F as [|c c' w w' H F IH]; [reflexivity|]. cbn [scan]. rewrite (H1 _ _ H), (H2 _ _ H), IH. reflexivity. Qed.
Lemma not_in_even l o o' : even_set l -> near o o' -> not_in l o = not_in l o'.
Proof. intros H N. destruct o, o'; cbn in N |- *; try destruct N; [rewrite (H _ _ N); reflexivity|reflexivity]. Qed.
Lemma punct_even u : even_set (pc_word u) -> even_set (pc_space u) -> even_set (pc_letters u) -> forall w w' q, Forall2 R w w' ->
  prepunc_mark u w q = prepunc_mark u w' q /\ postpunc_mark u w q = postpunc_mark u w' q.
Proof.
  intros H1 H2 H3 w w' q F. unfold prepunc_mark, postpunc_mark. split; f_equal.
  - apply not_in_even; [exact H3|]. destruct q as [|q]; [exact I|]. apply two_nth, F.
  - apply scan_even; auto. apply two_skip, F.
  - apply not_in_even; [exact H3|]. apply two_nth, F.
  - apply scan_even; auto. apply two_rev, two_first, F.
Qed.
End Related.

Section Walk.
Variable lower upper : char -> list char.
Variable p : ptable.
Hypothesis OK : table_ok lower p.
Variable R : char -> char -> Prop.
Hypothesis RL : forall c c', R c c' -> lower c = lower c'.
Hypothesis B1 : all_edges (evenly R) (p_trie p).
Hypothesis B2 : forall rest prev, find_translations lower (p_nocross p) rest prev = [].
Hypothesis B3 : all_edges (evenly R) (p_comp6 p).
Hypothesis FB : forall c c' t t', R c c' -> fallback_piece p c = Ok t -> fallback_piece p c' = Ok t' -> r_output t = r_output t'.
Variable lim lim' : pos_flags.
Variable ind ind' : list (list resolved).
Hypothesis LIM : forall q, flag_at k_comp6 lim q = flag_at k_comp6 lim' q /\ flag_at k_dont_contract lim q = flag_at k_dont_contract lim' q /\
  flag_at k_prepunc lim q = flag_at k_prepunc lim' q /\ flag_at k_postpunc lim q = flag_at k_postpunc lim' q.
Hypothesis IS : forall q t, In t (nth q ind []) -> is_sign t = true.
Hypothesis IS' : forall q t, In t (nth q ind' []) -> is_sign t = true.
Lemma fallback_shape c t : fallback_piece p c = Ok t -> r_length t = 1 /\ r_input t = [c].
Proof.
  intros EF. unfold fallback_piece in EF. destruct (assoc c (p_chars p)) as [u|] eqn:Ea.
  - injection EF as <-. destruct (ok_chars _ _ OK c u Ea) as (H1 & H2 & H3 & H4). auto.
  - destruct (p_undefined p); [injection EF as <-; auto|]. destruct (handle_undefined (p_fallback p) c); try discriminate. injection EF as <-. auto.
Qed.
Definition same_piece (t t' : resolved) : Prop := r_output t = r_output t' /\ r_length t = r_length t' /\ near R (last_char (r_input t)) (last_char (r_input t')).
Hypothesis RR : forall c, R c c.
Lemma pick_even pos prev prev' w w' : Forall2 R w w' -> near R prev prev' ->
  match pick lower p lim pos prev w, pick lower p lim' pos prev' w' with
  | None, None => True
  | Some (Ok t), Some (Ok t') => same_piece t t'
  | Some (Ok t), None | None, Some (Ok t) => False
  | _, _ => True
  end.
Proof.
  intros F N. unfold pick. assert (NC : forall l r v q, nocross_candidates lower p l r v q = []) by (intros; unfold nocross_candidates; rewrite B2; reflexivity).
  rewrite !NC. cbn [max_weight fold_left].
  assert (E : options lower p lim pos prev w = options lower p lim' pos prev' w').
  { unfold options. rewrite (find_evenly lower R RL _ B1 w w' prev prev' F N), (find_evenly lower R RL _ B3 w w' prev prev' F N).
    destruct (LIM pos) as (L1 & L2 & L3 & L4). rewrite L1, L2. destruct (flag_at k_comp6 lim' pos); [reflexivity|]. apply filter_ext'. intros t _. unfold punc_ok. rewrite L3, L4. reflexivity. }
  rewrite E. unfold max_weight. cbn [fold_left]. match goal with |- context [fold_left ?f ?l None] => destruct (fold_left f l None) as [t|] end.
  - split; [reflexivity|]. split; [reflexivity|]. destruct (last_char (r_input t)); cbn; auto.
  - destruct F as [|c c' w w' H F]; [exact I|]. destruct (fallback_piece p c) as [t| |] eqn:E1; try exact I; destruct (fallback_piece p c') as [t'| |] eqn:E2; try exact I.
    destruct (fallback_shape _ _ E1) as [S1 S2], (fallback_shape _ _ E2) as [S3 S4]. unfold same_piece. rewrite S1, S2, S3, S4. split; [eapply FB; eauto|]. split; [reflexivity|exact H].
Qed.
Lemma text_signs l : (forall t, In t l -> is_sign t = true) -> forall r, text_pieces (l ++ r) = text_pieces r.
Proof.
  unfold text_pieces. intros H r. rewrite filter_app. replace (filter (fun t => negb (is_sign t)) l) with (@nil resolved); [reflexivity|].
  induction l as [|t l IH]; [reflexivity|]. cbn [filter]. rewrite (H t (or_introl eq_refl)). cbn [negb]. apply IH. intros u Hu. apply H. right. exact Hu.
Qed.
Definition alike_piece (t t' : resolved) : Prop := r_output t = r_output t' /\ r_length t = r_length t'.
Lemma walks_even pos prev w out : walk lower p lim ind pos prev w out -> forall prev' w' out', Forall2 R w w' -> near R prev prev' ->
  walk lower p lim' ind' pos prev' w' out' -> Forall2 alike_piece (text_pieces out) (text_pieces out').
Proof.
  induction 1 as [pos prev w E|pos prev w t out E W IH]; intros prev' w' out' F N W'; inversion W' as [? ? ? E'|? ? ? t' o' E' W2]; subst;
    pose proof (pick_even pos prev prev' w w' F N) as P; rewrite E, E' in P.
  - rewrite <- (app_nil_r (nth pos ind [])), <- (app_nil_r (nth pos ind' [])), !text_signs by (apply IS || apply IS'). constructor.
  - destruct P.
  - destruct P.
  - rewrite !text_signs by (apply IS || apply IS'). destruct P as (P1 & P2 & P3).
    destruct (pick_offer lower p OK _ _ _ _ _ E) as (Q1 & _). destruct (pick_offer lower p OK _ _ _ _ _ E') as (Q2 & _).
    assert (NS : forall u, 1 <= r_length u -> is_sign u = false) by (intros u L; unfold is_sign; destruct (Nat.eqb_spec (r_length u) 0); [lia|reflexivity]).
    unfold text_pieces. cbn [filter]. rewrite !NS by lia. cbn [negb]. constructor; [split; assumption|].
    rewrite <- P2 in W2. eapply IH; [|exact P3|exact W2]. apply two_skip, F.
Qed.
End Walk.

(** ** The tables *)
Section Table.
Variable is_alphabetic : char -> bool.
Variable compat : bool.
Variable read_dictionary : str -> tres hyph.
Variable x : context.
Variable table : list rule.
Variable lower upper : char -> list char.
Variable sort : list event -> res (list event).
Variable m : main_table.
Hypothesis B : main_built is_alphabetic compat read_dictionary Forward x table m.
Hypothesis EX : context_compile is_alphabetic compat table = TOk x.
Hypothesis CB : case_blind table.
Hypothesis SORT : sort_rearranges sort.
Notation p := (mt_rules m).
Notation R := (fun c c' => c = c' \/ twins lower compat x table c c').
Lemma R_lower c c' : R c c' -> lower c = lower c'.
Proof. intros [->|T]; [reflexivity|apply (tw_lower _ _ _ _ _ _ T)]. Qed.
Lemma even_class k c c' : k <> CUppercase -> k <> CLowercase -> R c c' -> cls_has (x_chars x) k c = cls_has (x_chars x) k c'.
Proof.
  intros N1 N2 [->|T]; [reflexivity|]. apply Bool.eq_iff_eq_true. rewrite !(compile_classes _ _ _ _ _ _ EX). apply (tw_classes _ _ _ _ _ _ T); assumption.
Qed.
Definition plain_class (k : class) : Prop := k <> CUppercase /\ k <> CLowercase.
Lemma even_rc ks : (forall k, In k ks -> plain_class k) -> forall c c', R c c' ->
  rc_matches (rc_resolve (x_chars x) ks) (Some c) = rc_matches (rc_resolve (x_chars x) ks) (Some c').
Proof.
  intros H c c' T. apply Bool.eq_iff_eq_true. rewrite !rc_matches_spec. cbn [neighbour_in].
  split; intros (k & Hk & E); exists k; (split; [exact Hk|]); destruct (H k Hk) as [N1 N2]; rewrite <- E; [symmetry|]; apply even_class; assumption.
Qed.
Definition plain_args (a : ins_args) : Prop :=
  (forall k, In (KStart k) (i_constraints a) \/ In (KEnd k) (i_constraints a) -> plain_class k) /\
  (forall ks k, i_before a = Some (TrStart ks) \/ i_before a = Some (TrEnd ks) \/ i_after a = Some (TrStart ks) \/ i_after a = Some (TrEnd ks) -> In k ks -> plain_class k).
Lemma path_even a : plain_args a -> Forall (evenly R) (ins_path (x_chars x) Forward a).
Proof.
  intros [H1 H2]. unfold ins_path. repeat (apply Forall_app; split); apply Forall_forall; intros e He.
  - apply in_flat_map in He. destruct He as ([c|c] & Hc & He); [destruct He as [<-|[]]|destruct He]. cbn [evenly]. apply even_rc. intros k [<-|[]]. apply H1. auto.
  - apply in_map_iff in He. destruct He as (s & <- & Hs). destruct (i_before a) as [s'|] eqn:Eb; [|destruct Hs]. destruct Hs as [->|[]].
    destruct s as [ks|ks]; cbn [resolve_transition evenly]; apply even_rc; intros k Hk; eapply H2; eauto.
  - apply in_map_iff in He. destruct He as (c & <- & Hc). exact I.
  - apply in_map_iff in He. destruct He as (s & <- & Hs). destruct (i_after a) as [s'|] eqn:Eb; [|destruct Hs]. destruct Hs as [->|[]].
    destruct s as [ks|ks]; cbn [resolve_transition evenly]; apply even_rc; intros k Hk; eapply H2; eauto.
  - apply in_flat_map in He. destruct He as ([c|c] & Hc & He); [destruct He|destruct He as [<-|[]]]. cbn [evenly]. apply even_rc. intros k [<-|[]]. apply H1. auto.
Qed.
Lemma constraints_plain r k : In r table -> In (KStart k) (class_constraints x (with_classes r)) \/ In (KEnd k) (class_constraints x (with_classes r)) -> plain_class k.
Proof.
  intros Hr H. unfold class_constraints in H. rewrite !in_flat_map in H.
  destruct H as [(w & Hw & H)|(w & Hw & H)]; pose proof (cb_classes _ CB r w Hr Hw) as N; destruct w as [name|name];
    destruct (cls_get (x_chars x) (class_from name)); try (destruct H; fail); destruct H as [H|[]]; try discriminate H; injection H as <-; rewrite class_from_called;
    split; intros E; apply N; cbn; auto.
Qed.
Lemma word_plain r a : In r table -> In a (word_entries x r) -> plain_args a.
Proof.
  intros Hr I. pose proof (constraints_plain r) as CP. unfold word_entries in I.
  assert (A : forall A (u : tres A) (l : A -> list ins_args), In a match (tdo v <- u; TOk (l v)) with TOk k => k | _ => [] end -> exists v, u = TOk v /\ In a (l v)).
  { intros A u l H. destruct u; try destruct H. eauto. }
  assert (PC : forall ks k, In ks [[CSpace; CPunctuation]; [CLetter]; [CLetter; CSpace; CPunctuation]; [CDigit]] -> In k ks -> plain_class k).
  { intros ks k H1 H2. cbn in H1. repeat (destruct H1 as [<-|H1]; [cbn in H2; repeat (destruct H2 as [<-|H2]; [split; discriminate|]); destruct H2|]). destruct H1. }
  assert (PC' : forall o, In o [None; word_start; word_end; before_letter; after_letter; Some (TrEnd [CLetter; CSpace; CPunctuation]); Some (TrStart [CLetter; CSpace; CPunctuation]); Some (TrEnd [CDigit]); Some (TrStart [CDigit])] ->
    forall ks k, o = Some (TrStart ks) \/ o = Some (TrEnd ks) -> In k ks -> plain_class k).
  { intros o Ho ks k E. apply PC. cbn in Ho. repeat (destruct Ho as [<-|Ho]; [destruct E as [E|E]; try discriminate E; injection E as <-; cbn; tauto|]). destruct Ho. }
  assert (OK : forall f t u o1 o2 cs, In o1 [None; word_start; word_end; before_letter; after_letter; Some (TrEnd [CLetter; CSpace; CPunctuation]); Some (TrStart [CLetter; CSpace; CPunctuation]); Some (TrEnd [CDigit]); Some (TrStart [CDigit])] ->
     In o2 [None; word_start; word_end; before_letter; after_letter; Some (TrEnd [CLetter; CSpace; CPunctuation]); Some (TrStart [CLetter; CSpace; CPunctuation]); Some (TrEnd [CDigit]); Some (TrStart [CDigit])] ->
     cs = class_constraints x (with_classes r) \/ cs = [] -> plain_args (ins f t u o1 o2 cs)).
  { intros f t u o1 o2 cs H1 H2 H3. split; cbn [i_constraints i_before i_after ins].
    - intros k Hk. destruct H3 as [->| ->]; [eapply CP; eauto|destruct Hk as [[]|[]]].
    - intros ks k [E|[E|[E|E]]]; [apply (PC' _ H1)|apply (PC' _ H1)|apply (PC' _ H2)|apply (PC' _ H2)]; auto. }
  destruct r; cbn [word_insertions] in I; try (destruct I; fail); try (apply A in I; destruct I as (v & _ & I));
    try (destruct (forallb _ _)); repeat (destruct I as [<-|I]; [apply OK; [cbn; tauto|cbn; tauto|auto]|]); destruct I.
Qed.
Lemma tries_even : all_edges (evenly R) (p_trie p) /\ (forall rest prev, find_translations lower (p_nocross p) rest prev = []) /\
  all_edges (evenly R) (p_comp6 p) /\ p_match p = [] /\ p_context p = [] /\ p_dir p = Forward.
Proof.
  pose proof (mb_rules _ _ _ _ _ _ _ B) as CO.
  destruct CO as (p0 & E & S1 & S2 & S3 & _ & E2 & E3 & _ & _ & E6 & _). destruct (compile_spec _ _ _ _ _ _ E) as (I1 & I2 & I3 & _ & I5 & I6 & _ & _ & I9 & _).
  assert (Q : forall l n n', shuffle n n' -> trie_insert_all compat (trie_ctx Forward x) Forward node_empty l = TOk n -> (forall a, In a l -> plain_args a) -> all_edges (evenly R) n').
  { intros l n n' S T H. apply (edges_shuffle _ n n' S). eapply edges_build; [|exact T]. intros a Ha. apply path_even. auto. }
  split; [|split; [|split; [|split; [|split]]]].
  - eapply Q; [exact S1|exact I1|]. intros a Ha. unfold main_entries in Ha. cbn [is_backward backward_only] in Ha. apply in_app_iff in Ha. destruct Ha as [Ha|Ha].
    + exfalso. apply in_flat_map in Ha. destruct Ha as (r & _ & []).
    + apply in_flat_map in Ha. destruct Ha as (r & Hr & Ha). unfold main_entries_of in Ha. cbn [is_backward backward_only app] in Ha. apply in_app_iff in Ha. destruct Ha as [Ha|Ha].
      * exfalso. destruct r; destruct Ha.
      * destruct (is_nocross r); [destruct Ha|]. eapply word_plain; eauto.
  - intros rest prev. destruct (find_translations lower (p_nocross p) rest prev) as [|t l] eqn:EF; [reflexivity|]. exfalso.
    assert (I : In t (find_translations lower (p_nocross p) rest prev)) by (rewrite EF; left; reflexivity).
    apply (lookup_nocross compat read_dictionary Forward x table lower p (mb_rules _ _ _ _ _ _ _ B)) in I. destruct I as (full & a & IF & _).
    apply in_force_in in IF. apply nocross_oriented in IF. destruct IF as (_ & r & Hr & _ & NR). pose proof (cb_rules _ CB r Hr) as T.
    destruct r; cbn [tells_case] in T; try discriminate T; congruence.
  - eapply Q; [exact S3|exact I3|]. intros a Ha. unfold comp6_entries in Ha. apply in_flat_map in Ha. destruct Ha as (r & Hr & Ha).
    destruct r; try (destruct Ha; fail). cbn [comp6_entries_of] in Ha. destruct (dots_of x dots chars); try (destruct Ha; fail). destruct Ha as [<-|[]].
    split; cbn [i_constraints i_before i_after ins]; [intros k [[]|[]]|intros ks k [H|[H|[H|H]]]; discriminate H].
  - rewrite E2, I5. destruct (flat_map (match_entries x) table) as [|c l] eqn:EE; [reflexivity|]. exfalso.
    assert (I : In c (flat_map (match_entries x) table)) by (rewrite EE; left; reflexivity). apply in_flat_map in I. destruct I as (r & Hr & I).
    apply (cb_rules _ CB) in Hr. destruct r; try destruct I; discriminate.
  - rewrite E3, I6. destruct (flat_map (context_entries x) table) as [|c l] eqn:EE; [reflexivity|]. exfalso.
    assert (I : In c (flat_map (context_entries x) table)) by (rewrite EE; left; reflexivity). apply in_flat_map in I. destruct I as (r & Hr & I).
    apply (cb_rules _ CB) in Hr. destruct r; try destruct I; discriminate.
  - rewrite E6. exact I9.
Qed.
Lemma scanner_none : mt_scanner m = None.
Proof.
  rewrite (mb_scanner _ _ _ _ _ _ _ B). unfold build_scanner. destruct (compbrl_triggers table) as [|k l] eqn:E; [reflexivity|]. exfalso.
  assert (I : In k (compbrl_triggers table)) by (rewrite E; left; reflexivity). unfold compbrl_triggers in I. apply in_flat_map in I.
  destruct I as (r & Hr & I). apply (cb_rules _ CB) in Hr. destruct r; try destruct I; discriminate.
Qed.
(** restrictions *)
Lemma even_chars k : plain_class k -> even_set R (cls_chars (x_chars x) k).
Proof. intros [N1 N2] c c' H. rewrite !cls_chars_has. apply even_class; assumption. Qed.
Lemma even_app l l' : even_set R l -> even_set R l' -> even_set R (l ++ l').
Proof. intros H1 H2 c c' H. unfold mem. rewrite !existsb_app. f_equal; [apply (H1 c c' H)|apply (H2 c c' H)]. Qed.
Lemma even_extra : even_set R (extra_numeric table).
Proof.
  intros c c' [->|T]; [reflexivity|]. unfold extra_numeric. destruct (last_some table _) as [l|] eqn:E; [|reflexivity]. apply last_some_In in E. destruct E as (r & Hr & E).
  pose proof (tw_numbers _ _ _ _ _ _ T r Hr) as N. destruct r; try discriminate. injection E as ->. apply Bool.eq_iff_eq_true. rewrite !mem_In. exact N.
Qed.
Lemma even_mid : even_set R (mid_numeric table).
Proof.
  intros c c' [->|T]; [reflexivity|]. apply Bool.eq_iff_eq_true. rewrite !mem_In. unfold mid_numeric. rewrite !in_app_iff, !in_flat_map.
  assert (G : forall a b, (forall r, In r table -> In a (number_chars r) -> In b (number_chars r)) ->
     (exists r, In r table /\ In a match r with RDecpoint c0 _ => [c0] | _ => [] end) \/ (exists r, In r table /\ In a match r with RMidnum chars _ _ => chars | _ => [] end) ->
     (exists r, In r table /\ In b match r with RDecpoint c0 _ => [c0] | _ => [] end) \/ (exists r, In r table /\ In b match r with RMidnum chars _ _ => chars | _ => [] end)).
  { intros a b N [(r & Hr & I)|(r & Hr & I)]; [left|right]; exists r; (split; [exact Hr|]); specialize (N r Hr); destruct r; try destruct I; try exact (N I); try contradiction; try exact (N (or_introl H)). }
  split; apply G; intros r Hr; apply (tw_numbers _ _ _ _ _ _ T r Hr).
Qed.
Notation kc := (build_constrainers is_alphabetic read_dictionary Forward x table).
Lemma limits_even w w' spans l l' : Forall2 R w w' -> limits_of kc w spans = Ok l -> limits_of kc w' spans = Ok l' -> forall q,
  flag_at k_comp6 l q = flag_at k_comp6 l' q /\ flag_at k_dont_contract l q = flag_at k_dont_contract l' q /\
  flag_at k_prepunc l q = flag_at k_prepunc l' q /\ flag_at k_postpunc l q = flag_at k_postpunc l' q.
Proof.
  intros F. unfold limits_of. cbn [build_constrainers kc_numeric kc_caps kc_number kc_hyphen kc_punct]. unfold build_caps, build_number, backward_dots. cbn [is_backward optional bind fst snd].
  destruct (optional _ (fun u => hyphen_marks (fst u) (snd u) w) []) as [b| |]; try discriminate.
  destruct (optional _ (fun u => hyphen_marks (fst u) (snd u) w') []) as [b'| |]; try discriminate. cbn [bind].
  pose proof (two_length _ _ _ F) as LE. unfold str, char in *. rewrite <- LE. intros [= <-] [= <-] q.
  destruct (Nat.lt_ge_cases q (length w)) as [L|L].
  2:{ assert (Z : forall f g, flag_at f (map g (List.seq 0 (length w))) q = false).
      { intros f g. unfold flag_at. rewrite nth_error_map. rewrite (proj2 (nth_error_None (List.seq 0 (length w)) q)); [reflexivity|]. rewrite seq_length. exact L. }
      rewrite !Z. auto. }
  rewrite !flag_map by exact L. cbn [k_comp6 k_dont_contract k_prepunc k_postpunc]. split; [reflexivity|]. split.
  - unfold build_numeric. destruct (is_empty (digits x)); [reflexivity|]. rewrite (marks_even R (mk_numeric_chars (digits x) (extra_numeric table) (mid_numeric table))) with (w' := w'); cbn [nu_digits nu_extra nu_mid]; auto.
    + apply even_chars. split; discriminate.
    + apply even_extra.
    + apply even_mid.
  - destruct (build_punct Forward x table) as [u|] eqn:EP; [|auto]. unfold build_punct in EP. destruct (_ && _)%bool; [|discriminate]. injection EP as <-.
    apply (punct_even R); cbn [pc_word pc_space pc_letters]; auto; try (apply even_app); apply even_chars; split; discriminate.
Qed.
(** single characters *)
Lemma written_unique r s s' : written_as x r s -> written_as x r s' -> s = s'.
Proof. destruct r; cbn [written_as]; try tauto; congruence. Qed.
Lemma piece_written c t r : character_lookup Forward x table compat c = Some t -> r_origin t = Some r -> written_as x r (r_output t).
Proof.
  unfold character_lookup, character_table. cbn [is_backward]. intros H O.
  assert (I : In (c, t) (flat_map (char_pieces first_characters) table ++ flat_map (char_pieces (other_characters Forward x table)) table)).
  { destruct compat; apply assoc_in in H; [exact H|apply in_rev; exact H]. }
  apply in_app_iff in I. rewrite !in_flat_map in I. destruct I as [(r' & _ & I)|(r' & _ & I)]; unfold char_pieces in I; apply in_map_iff in I; destruct I as ([c0 g] & E & I);
    injection E as <- <-; cbn [resolved_new r_origin r_output] in *; injection O as ->.
  - destruct r; cbn in I; try (destruct I; fail); destruct I as [I|[]]; injection I as _ <-; reflexivity.
  - destruct r; cbn [other_characters] in I; try (destruct I; fail); try (destruct I as [I|[]]; injection I as _ <-; reflexivity).
    + destruct (mem c (litdigit_chars Forward table)); [destruct I|]. destruct I as [I|[]]. injection I as _ <-. reflexivity.
    + cbn [written_as]. destruct (defs_get (x_defs x) base) as [s|]; [|destruct I]. destruct I as [I|[]]. injection I as _ <-. reflexivity.
Qed.
Lemma definition_defined c r : the_definition x table compat c r -> defined x table c.
Proof.
  unfold the_definition, the_first, the_last. destruct compat.
  - intros [(a & b & E & H & _)|[_ (a & b & E & H & _)]]; exists r; (split; [rewrite E; apply in_elt|auto]).
  - intros [(a & b & E & H & _)|[_ (a & b & E & H & _)]]; exists r; (split; [rewrite E; apply in_elt|auto]).
Qed.
Lemma fallback_written c r s t : the_definition x table compat c r -> written_as x r s -> fallback_piece p c = Ok t -> r_output t = s.
Proof.
  intros D WA E. destruct (mb_rules _ _ _ _ _ _ _ B) as (p0 & E0 & _ & _ & _ & E1 & _). destruct (compile_spec _ _ _ _ _ _ E0) as (_ & _ & _ & I4 & _).
  unfold fallback_piece in E. rewrite E1, I4 in E. destruct (character_lookup Forward x table compat c) as [u|] eqn:EL.
  - injection E as <-. destruct (lookup_definition x table compat c u EL) as (r' & D' & O & _). pose proof (C73_one_definition x table compat c r r' D D') as ->.
    eapply written_unique; [|exact WA]. eapply piece_written; eauto.
  - exfalso. apply (lookup_none x table compat c EL). eapply definition_defined, D.
Qed.
Lemma fallback_even c c' t t' : R c c' -> fallback_piece p c = Ok t -> fallback_piece p c' = Ok t' -> r_output t = r_output t'.
Proof.
  intros [->|T] E E'; [congruence|]. destruct (tw_cells _ _ _ _ _ _ T) as (r & r' & s & D & D' & WA & WA').
  rewrite (fallback_written c r s t D WA E), (fallback_written c' r' s t' D' WA' E'). reflexivity.
Qed.
Lemma sign_seen t : rule_sign table t -> is_sign t = true.
Proof.
  intros (r & dots & Hr & S & ->). unfold is_sign, sign. cbn. destruct r; try discriminate S; reflexivity.
Qed.
Notation trace := (main_trace lower upper sort m).
(** the signs of a text *)
Lemma all_signs w spans ind : indications_of lower sort (mt_indicators m) w spans = Ok ind -> forall q t, In t (nth q ind []) -> rule_sign table t.
Proof.
  intros E. assert (SO : sort_returns sort (emph_events (in_emph (mt_indicators m)) 0 w spans)).
  { unfold sort_returns. destruct (Nat.le_gt_cases (length (emph_events (in_emph (mt_indicators m)) 0 w spans)) 20) as [L|L]; [auto|]. right.
    unfold indications_of, emph_precompute, event_sort in E. destruct (Nat.leb_spec (length (emph_events (in_emph (mt_indicators m)) 0 w spans)) 20) as [L'|L']; [lia|].
    destruct (sort (emph_events (in_emph (mt_indicators m)) 0 w spans)) as [l'| |] eqn:El; try discriminate. exists l'. split; [reflexivity|]. apply SORT in El. exact El. }
  destruct (indications_spec compat x table (mt_indicators m) lower sort w spans (mb_indicators _ _ _ _ _ _ _ B) SO) as (em & caps & i' & _ & _ & E3 & _ & _ & E6).
  rewrite E in E3. injection E3 as <-. intros q t H. destruct (nth_in_or_default q ind []) as [H'|H']; [exact (E6 _ _ H' H)|rewrite H' in H; destruct H].
Qed.
Lemma traces_even w w' spans out out' : Forall2 R w w' -> trace w spans = Ok out -> trace w' spans = Ok out' ->
  Forall2 alike_piece (text_pieces out) (text_pieces out').
Proof.
  intros F E E'. unfold main_trace, enriched in E, E'. rewrite scanner_none in E, E'. cbn [bind] in E, E'. rewrite (mb_constrainers _ _ _ _ _ _ _ B) in E, E'.
  destruct (indications_of lower sort (mt_indicators m) w spans) as [i| |] eqn:Ei; try discriminate E. cbn [bind] in E.
  destruct (indications_of lower sort (mt_indicators m) w' spans) as [i'| |] eqn:Ei'; try discriminate E'. cbn [bind] in E'.
  destruct (limits_of kc w spans) as [l| |] eqn:El; try discriminate E. cbn [bind] in E. destruct (limits_of kc w' spans) as [l'| |] eqn:El'; try discriminate E'. cbn [bind] in E'.
  destruct tries_even as (B1 & B2 & B3 & NM & NC & FW). pose proof (compiled_ok compat read_dictionary Forward x table lower _ (mb_rules _ _ _ _ _ _ _ B)) as OK.
  apply (run_walk lower upper p OK NM NC FW) in E, E'.
  eapply (walks_even lower p OK R R_lower B1 B2 B3 fallback_even l l' i i'); [| | | |exact E|exact F| |exact E'].
  - exact (limits_even w w' spans l l' F El El').
  - intros q t H. apply sign_seen, (all_signs w spans i Ei q t H).
  - intros q t H. apply sign_seen, (all_signs w' spans i' Ei' q t H).
  - auto.
  - exact I.
Qed.
Lemma all_text w spans out : (forall r, In r table -> sign_dots r = None) -> trace w spans = Ok out -> text_pieces out = out.
Proof.
  intros NS E. unfold main_trace, enriched in E. rewrite scanner_none in E. cbn [bind] in E. rewrite (mb_constrainers _ _ _ _ _ _ _ B) in E.
  destruct (indications_of lower sort (mt_indicators m) w spans) as [i| |] eqn:Ei; try discriminate E. cbn [bind] in E.
  destruct (limits_of kc w spans) as [l| |] eqn:El; try discriminate E. cbn [bind] in E.
  destruct tries_even as (B1 & B2 & B3 & NM & NC & FW). pose proof (compiled_ok compat read_dictionary Forward x table lower _ (mb_rules _ _ _ _ _ _ _ B)) as OK.
  apply (run_walk lower upper p OK NM NC FW) in E.
  assert (Z : forall q, nth q i [] = []).
  { intros q. destruct (nth q i []) as [|t l0] eqn:En; [reflexivity|]. exfalso. destruct (all_signs w spans i Ei q t) as (r & dots & Hr & S & _); [rewrite En; left; reflexivity|].
    rewrite (NS r Hr) in S. discriminate S. }
  clear Ei El. induction E as [pos prev w0 P|pos prev w0 t out P W IH]; rewrite Z; cbn [app]; [reflexivity|].
  destruct (pick_offer lower p OK _ _ _ _ _ P) as (Q1 & _). unfold text_pieces. cbn [filter]. assert (N : is_sign t = false) by (unfold is_sign; destruct (Nat.eqb_spec (r_length t) 0); [lia|reflexivity]).
  rewrite N. cbn [negb]. f_equal. exact IH.
Qed.
End Table.
