(** C01, C02, C06 - C10, C12, C26, C42 for the main pass.

    A table of the main pass is given by [main_built]: its rules compiled for a direction,
    whatever the iteration order of the hash maps in it ([C02_compiling] below).  The
    functions [lower], [upper], [is_alphabetic] of the library, the reading of dictionaries
    and the library's [sort] are arbitrary; of the latter it is only assumed that it
    rearranges what it sorts. *)
From Coq Require Import Permutation.
From Verif Require Import Base BaseProofs RuleModel TranslationModel TranslationProofs TableModel RegexpModel
  RegexpSpec PatternModel MatchProofs TrieModel TrieProofs PropTrie
  HyphenationModel HyphenationProofs LoopModel LoopProofs MultipassProofs PrimaryProofs PrimaryTrace CompileModel CompileSpec
  CompileProofs MainTable ConstraintModel ConstraintSpec ConstraintProofs IndicatorModel IndicatorProofs
  CapsSpec CapsProofs CapsFacts EmphSpec EmphProofs MainSpec StepProofs TraceSpec MainPass StepFacts TraceProofs SignSpec SignProofs SetupSpec SetupProofs.

Section Main.
Variable is_alphabetic : char -> bool.
Variable compat : bool.
Variable read_dictionary : str -> tres hyph.
Variable d : direction.
Variable x : context.
Variable rules : list rule.
Variable lower upper : char -> list char.
Variable sort : list event -> res (list event).
Variable m : main_table.
Hypothesis B : main_built is_alphabetic compat read_dictionary d x rules m.
Hypothesis DR : dictionaries_read read_dictionary.
Hypothesis SR : sort_rearranges sort.
Notation trace := (main_trace lower upper sort m).
Notation src := (rule_sources compat d x rules lower).

(** ** C01 *)
(** The input is the concatenation of segments, one for each piece of the trace and in the
    same order; each piece says its segment's length, and its text is the segment but for
    the case of letters. *)
Theorem C01_pieces_cover_the_input : forall input spans out, trace input spans = Ok out ->
  exists segments, concat segments = input /\
    Forall2 (fun seg t => r_length t = length seg /\
               Forall2 (fun c c' => c = c' \/ lower c = [c']) seg (r_input t)) segments out.
Proof.
  intros input spans out E. destruct (pass_traced _ _ _ _ _ _ lower upper sort m B DR input spans out SR E) as (sp & em & caps & ind & lim & ts & T).
  destruct (tc_cover _ _ _ _ _ _ _ _ _ _ _ _ _ _ _ _ _ _ _ T) as (segs & Es & F). exists segs. split; [exact Es|].
  clear - F. induction F as [|s t l l' (H1 & H2 & H3) F IH]; constructor; auto.
Qed.
Theorem C01_lengths_add_up : forall input spans out, trace input spans = Ok out ->
  position out = length input.
Proof.
  intros input spans out E. destruct (C01_pieces_cover_the_input input spans out E) as (segs & <- & F).
  clear E. unfold position. induction F as [|s t l l' (H & _) F IH]; [reflexivity|]. cbn [map list_sum fold_right concat]. rewrite app_length, H.
  f_equal. exact IH.
Qed.

(** ** C02 *)
(** The pass ends without a panic on every text in which no compbrl trigger starts with a
    space, provided the library's sort does; see [C02_compbrl_space_refuted]. *)
Theorem C02_main_pass_ends : forall input spans,
  (forall p, compbrl_at rules input p -> ~ is_space x input p) ->
  (forall l, exists l', sort l = Ok l') ->
  exists out, trace input spans = Ok out.
Proof.
  intros input spans TW ST. eapply (pass_total _ _ _ _ _ _ _ _ _ _ B DR); [eapply on_words; eauto|]. intros sp _. right.
  destruct (ST (emph_events (in_emph (mt_indicators m)) 0 input sp)) as (l' & El). exists l'. split; [exact El|apply SR, El].
Qed.
(** With at most 20 emphasis signs the sort of the library is not even needed. *)
Theorem C02_main_pass_ends_without_emphasis : forall input spans,
  (forall p, compbrl_at rules input p -> ~ is_space x input p) -> (forall r name, In r rules -> ~ speaks_of r name) ->
  exists out, trace input spans = Ok out.
Proof.
  intros input spans TW NE. eapply (pass_total _ _ _ _ _ _ _ _ _ _ B DR); [eapply on_words; eauto|]. intros sp _. left.
  assert (E : in_emph (mt_indicators m) = []); [|rewrite E; cbn; lia].
  destruct (mb_indicators _ _ _ _ _ _ _ B) as (o1 & o2 & i0 & _ & _ & EB & _ & E2 & _). rewrite E2.
  unfold build_indicators in EB. destruct (build_letter_ind compat x rules o1) as [li| |]; try discriminate. cbn [tbind] in EB.
  destruct (build_nocont_ind compat x rules o2) as [nc| |]; try discriminate. cbn [tbind] in EB. injection EB as <-. cbn [in_emph].
  destruct (build_emph x rules) as [|u l] eqn:EE; [reflexivity|]. exfalso.
  assert (I : In u (build_emph x rules)) by (rewrite EE; left; reflexivity). unfold build_emph in I.
  rewrite filter_In, in_map_iff in I. destruct I as ((name & Eu & _) & K).
  assert (N : forall A (f : rule -> option A), last_some rules (fun r => if match emph_name r with Some n => str_eqb n name | None => false end then f r else None) = None).
  { intros A f. destruct (last_some rules _) as [a|] eqn:E; [|reflexivity]. apply last_some_In in E. destruct E as (r & Hr & E).
    destruct (emph_name r) as [n|] eqn:EN; [|discriminate E]. destruct (NE r n Hr). apply speaks_iff, EN. }
  subst u. unfold build_emph_class in K. cbn in K. rewrite !N in K. cbn in K. discriminate.
Qed.

(** ** C06, C07 *)
Lemma restricted input spans sp em caps ind lim ts out :
  traced is_alphabetic compat read_dictionary d x rules lower upper sort m input spans sp em caps ind lim ts out ->
  table_restricts is_alphabetic read_dictionary d x rules input sp lim.
Proof. intros T. eapply table_restrictions; [apply (mb_rules _ _ _ _ _ _ _ B)|apply T]. Qed.
(** Every piece made from the text is the best choice ([MainSpec.best]) for the position it
    stands at: an applicable rule not outweighed by another, or the character itself if
    there is none.  The choices before it ([ts]) are those that gave the pieces before it,
    and the restrictions on positions ([lim]) are the specified ones. *)
Theorem C06_every_choice_is_the_strongest : forall input spans out a t b,
  trace input spans = Ok out -> out = a ++ t :: b -> is_sign t = false ->
  exists sp lim ts h u,
    marked_spans x rules input spans sp /\
    table_restricts is_alphabetic read_dictionary d x rules input sp lim /\
    derivation src d lim input ts /\ show_all upper d lim 0 ts = text_pieces a /\ reached ts = position a /\
    best src d lim input ts (h, u) /\ t = shown upper d lim (position a) (h, u).
Proof.
  intros input spans out a t b E Eo NS. destruct (pass_traced _ _ _ _ _ _ lower upper sort m B DR input spans out SR E) as (sp & em & caps & ind & lim & ts & T).
  destruct (piece _ _ _ _ _ _ _ _ _ _ B _ _ _ _ _ _ _ _ _ T a t b Eo) as [(S & _)|(_ & ts1 & y & ts2 & Ets & R & H & Et & W)]; [congruence|].
  destruct y as [h u]. exists sp, lim, ts1, h, u. split; [eapply marked_enriched, T; eauto|]. split; [eapply restricted; exact T|]. split.
  - eapply derivation_prefix. rewrite <- Ets. apply T.
  - auto.
Qed.
(** and at the end nothing is left to insert *)
Theorem C06_nothing_is_left : forall input spans out, trace input spans = Ok out ->
  exists sp lim ts,
    marked_spans x rules input spans sp /\
    table_restricts is_alphabetic read_dictionary d x rules input sp lim /\
    derivation src d lim input ts /\ show_all upper d lim 0 ts = text_pieces out /\
    finished src d lim input ts.
Proof.
  intros input spans out E. destruct (pass_traced _ _ _ _ _ _ lower upper sort m B DR input spans out SR E) as (sp & em & caps & ind & lim & ts & T).
  exists sp, lim, ts. split; [eapply marked_enriched, T; eauto|]. split; [eapply restricted; exact T|]. split; [apply T|]. split; [|apply T].
  rewrite (tc_out _ _ _ _ _ _ _ _ _ _ _ _ _ _ _ _ _ _ _ T). symmetry. apply written_text.
  - eapply ind_signs, T.
  - intros pos y. eapply step_not_sign; eauto.
Qed.
(** Between two characters, no two insertions with the same replacement and weight are made. *)
Theorem C07_main_pass_no_insertion_twice : forall input spans out a t1 mid t2 b,
  trace input spans = Ok out -> d = Forward -> out = a ++ t1 :: mid ++ t2 :: b ->
  is_sign t1 = false -> is_sign t2 = false -> position (t1 :: mid ++ [t2]) = 0 ->
  (r_output t1, r_weight t1) <> (r_output t2, r_weight t2).
Proof.
  intros input spans out a t1 mid t2 b E DF Eo S1 S2 P0 EQ. injection EQ as EQ1 EQ2.
  destruct (pass_traced _ _ _ _ _ _ lower upper sort m B DR input spans out SR E) as (sp & em & caps & ind & lim & ts & T).
  assert (Eo2 : out = (a ++ t1 :: mid) ++ t2 :: b) by (rewrite Eo, <- app_assoc; reflexivity).
  destruct (piece _ _ _ _ _ _ _ _ _ _ B _ _ _ _ _ _ _ _ _ T _ _ _ Eo2) as [(X & _)|(_ & ts1 & y & ts2 & Ets & R & H & Et & W)]; [congruence|].
  rewrite text_pieces_app in W. unfold text_pieces at 2 in W. cbn [filter] in W. rewrite S1 in W. cbn [negb] in W.
  fold (text_pieces mid) in W. destruct (step_at _ _ _ _ _ _ _ _ _ _ B _ _ _ _ _ _ _ _ _ T _ _ _ Ets) as (_ & IN & ST).
  assert (SH : forall l pos, show_all upper d lim pos l = map snd l).
  { rewrite DF. induction l as [|z l IH]; intros pos; [reflexivity|]. cbn [show_all map]. rewrite IH. destruct z as [[| |] z]; reflexivity. }
  rewrite SH in W. assert (Q : exists l1 z l2, ts1 = l1 ++ z :: l2 /\ map snd l1 = text_pieces a /\ snd z = t1 /\ map snd l2 = text_pieces mid).
  { revert W. generalize (text_pieces a) as u. clear. induction ts1 as [|z l IH]; intros u; [destruct u; discriminate|]. destruct u as [|u0 u]; cbn [map app].
    - intros [= <- <-]. exists [], z, l. auto.
    - intros [= <- H]. destruct (IH _ H) as (l1 & z' & l2 & -> & <- & <- & <-). exists (z :: l1), z', l2. auto. }
  destruct Q as (l1 & z & l2 & -> & _ & Ez & E2).
  assert (LZ : r_length t1 = 0 /\ position mid = 0 /\ r_length t2 = 0).
  { unfold position in *. cbn [map list_sum fold_right] in P0. rewrite map_app in P0.
    change (fold_right Nat.add 0) with list_sum in P0. rewrite list_sum_app in P0. cbn in P0. lia. }
  destruct LZ as (Z1 & Z2 & Z3).
  assert (R2 : forall v, In v l2 -> r_length (snd v) = 0).
  { intros v Hv. assert (I : In (snd v) mid) by (assert (J : In (snd v) (text_pieces mid)) by (rewrite <- E2; apply in_map, Hv); apply filter_In in J; apply J).
    revert I Z2. unfold position. clear. induction mid as [|w mid IH]; [intros []|]. cbn [map list_sum fold_right]. intros [<-|I] Z; [lia|]. apply IH; [exact I|]. unfold list_sum. lia. }
  assert (HOW : forall l v l', ts = l ++ v :: l' -> r_length (snd v) = 0 -> fst v = ByRule).
  { intros l v l' El Lv. destruct (step_at _ _ _ _ _ _ _ _ _ _ B _ _ _ _ _ _ _ _ _ T _ _ _ El) as (Hv & Iv & _).
    destruct (step_facts compat read_dictionary d x rules lower _ (mb_rules _ _ _ _ _ _ _ B) lim input l v Iv Hv) as [_ F].
    destruct v as [[| |] v]; cbn [fst snd] in *; [lia|reflexivity|lia]. }
  assert (Hz : fst z = ByRule).
  { apply (HOW l1 z (l2 ++ y :: ts2)); [rewrite Ets, <- app_assoc; reflexivity|congruence]. }
  assert (INS : forall l, (exists r, l2 = l ++ r) -> In (subset_of t1) (inserted (l1 ++ z :: l))).
  { induction l as [|v l IH] using rev_ind; intros (r & El).
    - rewrite inserted_snoc. destruct z as [hz tz]; cbn [fst snd] in *; subst hz tz. cbn [insert_step]. rewrite Z1. left. reflexivity.
    - rewrite <- app_assoc in El. cbn [app] in El. rewrite app_comm_cons, app_assoc, inserted_snoc.
      assert (Lv : r_length (snd v) = 0) by (apply R2; rewrite El; apply in_or_app; right; left; reflexivity).
      assert (Hv : fst v = ByRule).
      { apply (HOW (l1 ++ z :: l) v (r ++ y :: ts2)); [|exact Lv]. rewrite Ets, El, <- !app_assoc. cbn [app]. rewrite <- app_assoc. reflexivity. }
      destruct v as [hv tv]; cbn [fst snd] in *; subst hv. cbn [insert_step]. rewrite Lv. right. apply IH. eauto. }
  specialize (INS l2 (ex_intro _ [] (eq_sym (app_nil_r _)))).
  assert (Y : y = (ByRule, t2)).
  { assert (Hy : fst y = ByRule).
    { apply (HOW _ y ts2 Ets). rewrite <- Z3, Et. symmetry. apply shown_fields. }
    destruct y as [hy ty]; cbn [fst] in *; subst hy. rewrite Et, DF. reflexivity. }
  subst y. cbn [best] in H. destruct H as (_ & NW & _). apply NW. unfold subset_of in INS |- *.
  assert (I1 : r_input t1 = []).
  { assert (L1 : r_length t1 = length (r_input t1)) by (eapply out_lengths; [exact T|]; rewrite Eo; apply in_or_app; right; left; reflexivity).
    rewrite Z1 in L1. destruct (r_input t1); [reflexivity|discriminate]. }
  assert (I2 : r_input t2 = []).
  { assert (L2 : r_length t2 = length (r_input t2)) by (eapply out_lengths; [exact T|]; rewrite Eo2; apply in_or_app; right; left; reflexivity).
    rewrite Z3 in L2. destruct (r_input t2); [reflexivity|discriminate]. }
  rewrite I2, <- EQ1, <- EQ2, Z3. rewrite I1, Z1 in INS. exact INS.
Qed.

(** ** C08 *)
Lemma character_not_nocross r c : defines_character d x rules r c -> is_nocross r = false /\ is_comp6 r = false.
Proof. intros (dots & H). destruct r; cbn in *; auto; destruct H as [H|H]; destruct H. Qed.
Lemma text_piece_facts input spans sp em caps ind lim ts out a t b :
  traced is_alphabetic compat read_dictionary d x rules lower upper sort m input spans sp em caps ind lim ts out ->
  out = a ++ t :: b -> is_sign t = false ->
  exists ts1 h u, reached ts1 = position a /\ best src d lim input ts1 (h, u) /\ t = shown upper d lim (position a) (h, u) /\
    r_length t = r_length u /\ r_origin t = r_origin u /\ reached ts1 <= length input /\
  match h with
  | ByNocross => 1 <= r_length u /\ exists r, In r rules /\ r_origin u = Some r /\ is_nocross r = true
  | ByRule => exists r, In r rules /\ r_origin u = Some r /\
      is_nocross r = false /\ (is_comp6 r = true <-> flag_at k_comp6 lim (position a) = true) /\
      (is_comp6 r = true \/ text_rule r -> 1 <= r_length u) /\ (is_comp6 r = true \/ text_rule r \/ pattern_rule r)
  | ByFallback => r_length u = 1 /\ exists c r, left input ts1 = c :: r /\ r_input u = [c] /\
      (r_origin u = None \/ exists r, In r rules /\ r_origin u = Some r /\ defines_character d x rules r c)
  end.
Proof.
  intros T Eo S. destruct (piece _ _ _ _ _ _ _ _ _ _ B _ _ _ _ _ _ _ _ _ T a t b Eo) as [(X & _)|(_ & ts1 & [h u] & ts2 & Ets & R & H & Et & W)]; [congruence|].
  destruct (step_at _ _ _ _ _ _ _ _ _ _ B _ _ _ _ _ _ _ _ _ T _ _ _ Ets) as (_ & I & _).
  destruct (step_facts compat read_dictionary d x rules lower _ (mb_rules _ _ _ _ _ _ _ B) lim input ts1 (h, u) I H) as [_ F].
  exists ts1, h, u. destruct (shown_fields upper d lim (position a) (h, u)) as (L & _ & O & _). cbn [fst snd] in *. rewrite R in F.
  split; [exact R|]. split; [exact H|]. split; [exact Et|]. split; [rewrite Et; exact L|]. split; [rewrite Et; exact O|]. split; [exact I|exact F].
Qed.
Lemma nocross_not_sign t r : r_origin t = Some r -> is_nocross r = true -> is_sign t = false.
Proof. intros O N. unfold is_sign. rewrite O. destruct r; try discriminate N; apply andb_false_r. Qed.
Lemma comp6_not_sign t r : r_origin t = Some r -> is_comp6 r = true -> is_sign t = false.
Proof. intros O N. unfold is_sign. rewrite O. destruct r; try discriminate N; apply andb_false_r. Qed.

(** A rule marked nocross never stands for a stretch of text with a hyphenation point
    between two of its letters. *)
Theorem C08_nocross_rules_do_not_cross : forall input spans out a t b r h letters q,
  trace input spans = Ok out -> out = a ++ t :: b -> r_origin t = Some r -> is_nocross r = true ->
  hyphenates read_dictionary d x rules h letters ->
  position a <= q -> S q < position a + r_length t -> ~ break_behind h letters input q.
Proof.
  intros input spans out a t b r h letters q E Eo O N EH Q1 Q2 BR.
  destruct (pass_traced _ _ _ _ _ _ lower upper sort m B DR input spans out SR E) as (sp & em & caps & ind & lim & ts & T).
  destruct (text_piece_facts _ _ _ _ _ _ _ _ _ _ _ _ T Eo (nocross_not_sign t r O N)) as (ts1 & hw & u & R & H & Et & L & O' & _ & F).
  rewrite O in O'. destruct hw.
  - destruct H as ((_ & H) & _). rewrite R in H. specialize (H q Q1 ltac:(lia)).
    assert (X : flag_at k_break lim q = true); [|congruence]. apply (tr_break _ _ _ _ _ _ _ _ (restricted _ _ _ _ _ _ _ _ _ T)).
    exists h, letters. split; [exact EH|exact BR].
  - destruct F as (r' & _ & O2 & N' & _). congruence.
  - destruct F as (_ & c & rr & _ & _ & [O2|(r' & _ & O2 & D)]); [congruence|]. apply character_not_nocross in D. destruct D. congruence.
Qed.
(** And where there is none it is not held back: a nocross rule in force whose text stands
    behind the pieces [a] outweighs (or equals) nothing less than the piece chosen there. *)
Theorem C08_nocross_rules_are_used : forall input spans out a t b u,
  trace input spans = Ok out -> out = a ++ t :: b -> is_sign t = false ->
  rule_offers compat d x lower (nocross_entries x rules) (skipn (position a) input)
     (last_char (flat_map r_input (text_pieces a))) u ->
  (forall h letters q, hyphenates read_dictionary d x rules h letters ->
     position a <= q -> S q < position a + r_length u -> ~ break_behind h letters input q) ->
  r_weight u <= r_weight t /\ exists r, r_origin t = Some r.
Proof.
  intros input spans out a t b u E Eo S OF NB.
  destruct (pass_traced _ _ _ _ _ _ lower upper sort m B DR input spans out SR E) as (sp & em & caps & ind & lim & ts & T).
  destruct (piece _ _ _ _ _ _ _ _ _ _ B _ _ _ _ _ _ _ _ _ T a t b Eo) as [(X & _)|(_ & ts1 & y & ts2 & Ets & R & H & Et & W)]; [congruence|].
  destruct (step_at _ _ _ _ _ _ _ _ _ _ B _ _ _ _ _ _ _ _ _ T _ _ _ Ets) as (_ & I & _).
  assert (NA : nocross_available src lim input ts1 u).
  { split.
    - unfold left. rewrite R. cbn [by_nocross rule_sources].
      assert (PV : previous ts1 = last_char (flat_map r_input (text_pieces a))).
      { unfold previous. f_equal. rewrite <- W. clear. generalize 0 as pos. induction ts1 as [|z l IH]; intros pos; [reflexivity|].
        cbn [flat_map show_all]. rewrite <- IH. destruct (shown_fields upper d lim pos z) as (_ & -> & _). reflexivity. }
      rewrite PV. exact OF.
    - intros q Q1 Q2. destruct (flag_at k_break lim q) eqn:K; [|reflexivity]. exfalso.
      apply (tr_break _ _ _ _ _ _ _ _ (restricted _ _ _ _ _ _ _ _ _ T)) in K. destruct K as (h & letters & EH & BR).
      apply (NB h letters q EH); [rewrite <- R; exact Q1|rewrite <- R; exact Q2|exact BR]. }
  destruct (step_facts compat read_dictionary d x rules lower _ (mb_rules _ _ _ _ _ _ _ B) lim input ts1 y I H) as [_ F].
  destruct (shown_fields upper d lim (position a) y) as (_ & _ & O & WT & _). rewrite Et, O, WT.
  destruct y as [[| |] v]; cbn [fst snd best] in *.
  - destruct H as (_ & H & _). split; [apply H, NA|]. destruct F as (_ & r & _ & Or & _). eauto.
  - destruct H as (_ & _ & _ & H). split; [specialize (H u NA); lia|]. destruct F as (r & _ & Or & _). eauto.
  - destruct H as (_ & _ & H). destruct (H u NA).
Qed.

(** ** C09 *)
(** At a position of a number no rule for more than one character is applied, except a
    nocross rule or, in computer braille, a comp6 rule. *)
Theorem C09_no_contraction_in_numbers : forall input spans out a t b u,
  trace input spans = Ok out -> out = a ++ t :: b ->
  numbers x rules u -> in_number u input (position a) ->
  r_length t <= 1 \/
  exists r, r_origin t = Some r /\ In r rules /\
    (is_nocross r = true \/
     is_comp6 r = true /\ in_computer_braille x rules input spans (position a)).
Proof.
  intros input spans out a t b u E Eo EN IN.
  destruct (pass_traced _ _ _ _ _ _ lower upper sort m B DR input spans out SR E) as (sp & em & caps & ind & lim & ts & T).
  destruct (is_sign t) eqn:S.
  { left. unfold is_sign in S. apply andb_true_iff in S. destruct S as [S _]. apply Nat.eqb_eq in S. lia. }
  destruct (text_piece_facts _ _ _ _ _ _ _ _ _ _ _ _ T Eo S) as (ts1 & hw & v & R & H & Et & L & O & _ & F). rewrite L, O.
  destruct hw.
  - right. destruct F as (_ & r & Hr & Or & N). exists r. auto.
  - destruct F as (r & Hr & Or & _ & C6 & _). destruct (is_comp6 r) eqn:K.
    + right. exists r. split; [exact Or|]. split; [exact Hr|]. right. split; [exact K|]. apply (marked_positions x rules _ _ sp); [eapply marked_enriched, T; eauto|].
      destruct (proj1 (rs_comp _ _ _ _ (tc_limits _ _ _ _ _ _ _ _ _ _ _ _ _ _ _ _ _ _ _ T) (position a)) (proj1 C6 eq_refl)) as [X _]. exact X.
    + left. destruct H as (AV & _). unfold available in AV. rewrite R in AV.
      destruct (flag_at k_comp6 lim (position a)) eqn:K6; [pose proof (proj2 C6 eq_refl) as XX; discriminate XX|]. destruct AV as (LE & _). apply LE.
      apply (tr_number _ _ _ _ _ _ _ _ (restricted _ _ _ _ _ _ _ _ _ T)). exists u. auto.
  - left. destruct F as (F & _). lia.
Qed.

(** ** C10 *)
(** In computer braille - a span of the caller, or a word marked by compbrl - only comp6 rules, nocross rules and the translations of single
    characters are used; outside no comp6 rule is. *)
Theorem C10_computer_braille : forall input spans out a t b,
  trace input spans = Ok out -> out = a ++ t :: b -> is_sign t = false ->
  (in_computer_braille x rules input spans (position a) ->
     (exists r, In r rules /\ r_origin t = Some r /\ (is_comp6 r = true \/ is_nocross r = true)) \/
     r_length t = 1 /\ (r_origin t = None \/
        exists r c, In r rules /\ r_origin t = Some r /\ defines_character d x rules r c /\ nth_error input (position a) = Some c) \/
     position a = length input) /\
  (forall r, r_origin t = Some r -> is_comp6 r = true -> in_computer_braille x rules input spans (position a)).
Proof.
  intros input spans out a t b E Eo S.
  destruct (pass_traced _ _ _ _ _ _ lower upper sort m B DR input spans out SR E) as (sp & em & caps & ind & lim & ts & T).
  pose proof (rs_comp _ _ _ _ (tc_limits _ _ _ _ _ _ _ _ _ _ _ _ _ _ _ _ _ _ _ T) (position a)) as RC.
  rewrite (marked_positions x rules input spans sp) in RC; [|eapply marked_enriched, T; eauto].
  destruct (text_piece_facts _ _ _ _ _ _ _ _ _ _ _ _ T Eo S) as (ts1 & hw & v & R & H & Et & L & O & IL & F). rewrite L, O.
  destruct hw.
  - destruct F as (_ & r & Hr & Or & N). split; [intros _; left; exists r; auto|]. intros r' Or' K. rewrite Or in Or'. injection Or' as <-.
    destruct r; discriminate.
  - destruct F as (r & Hr & Or & _ & C6 & _). split.
    + intros IC. destruct (Nat.eq_dec (position a) (length input)) as [EQ|NE]; [auto|]. left. exists r. split; [exact Hr|]. split; [exact Or|].
      left. apply C6, RC. split; [exact IC|lia].
    + intros r' Or' K. rewrite Or in Or'. injection Or' as <-. apply RC, C6, K.
  - destruct F as (F & c & rr & EL & _ & FO). split.
    + intros _. right. left. split; [exact F|]. destruct FO as [FO|(r & Hr & Or & D)]; [auto|]. right. exists r, c. split; [exact Hr|]. split; [exact Or|].
      split; [exact D|]. unfold left in EL. rewrite R in EL. rewrite <- (firstn_skipn (position a) input), EL.
      rewrite nth_error_app2; rewrite firstn_length; [|lia]. replace (position a - Nat.min (position a) (length input)) with 0 by lia. reflexivity.
    + intros r' Or' K. destruct FO as [FO|(r & Hr & Or & D)]; [congruence|]. rewrite Or in Or'. injection Or' as <-. apply character_not_nocross in D. destruct D. congruence.
Qed.

(** ** C12 *)
(** prepunc and postpunc rules (not marked nocross) are applied only next to words. *)
Theorem C12_prepunc_before_words : forall input spans out a t b chars dots k,
  trace input spans = Ok out -> out = a ++ t :: b -> r_origin t = Some (RPrepunc chars dots k) -> nocross k = false ->
  exists u, punctuates d x rules u /\ ~ before_in input (position a) (pc_letters u) /\
            word_follows u input (position a).
Proof.
  intros input spans out a t b chars dots k E Eo Or NC.
  destruct (pass_traced _ _ _ _ _ _ lower upper sort m B DR input spans out SR E) as (sp & em & caps & ind & lim & ts & T).
  assert (S : is_sign t = false) by (unfold is_sign; rewrite Or; apply andb_false_r).
  destruct (text_piece_facts _ _ _ _ _ _ _ _ _ _ _ _ T Eo S) as (ts1 & hw & v & R & H & Et & L & O & IL & F). rewrite Or in O.
  destruct hw.
  - destruct F as (_ & r & _ & Or' & N). rewrite <- O in Or'. injection Or' as <-. cbn in N. congruence.
  - destruct F as (r & Hr & Or' & _ & C6 & _). rewrite <- O in Or'. injection Or' as <-. cbn in C6.
    destruct H as (AV & _). unfold available in AV. rewrite R in AV. destruct (flag_at k_comp6 lim (position a)); [pose proof (proj2 C6 eq_refl) as XX; discriminate XX|].
    destruct AV as (_ & [AV|(_ & PO & _)]).
    + destruct AV as (_ & _ & c & rr & _ & AV). apply assoc_in, digit_table_in in AV. destruct AV as (_ & _ & _ & _ & r' & ch & kk & _ & Or' & _ & K).
      rewrite <- O in Or'. injection Or' as <-. destruct K; discriminate.
    + unfold punc_ok in PO. rewrite <- O in PO. apply (tr_prepunc _ _ _ _ _ _ _ _ (restricted _ _ _ _ _ _ _ _ _ T)) in PO. exact PO.
  - destruct F as (_ & c & rr & _ & _ & [X|(r & _ & Or' & D)]); [congruence|]. rewrite <- O in Or'. injection Or' as <-. destruct D as (z & [D|D]); destruct D.
Qed.
Theorem C12_postpunc_behind_words : forall input spans out a t b chars dots k,
  trace input spans = Ok out -> out = a ++ t :: b -> r_origin t = Some (RPostpunc chars dots k) -> nocross k = false ->
  exists u, punctuates d x rules u /\ ~ at_in input (S (position a)) (pc_letters u) /\
            word_precedes u input (position a).
Proof.
  intros input spans out a t b chars dots k E Eo Or NC.
  destruct (pass_traced _ _ _ _ _ _ lower upper sort m B DR input spans out SR E) as (sp & em & caps & ind & lim & ts & T).
  assert (S : is_sign t = false) by (unfold is_sign; rewrite Or; apply andb_false_r).
  destruct (text_piece_facts _ _ _ _ _ _ _ _ _ _ _ _ T Eo S) as (ts1 & hw & v & R & H & Et & L & O & IL & F). rewrite Or in O.
  destruct hw.
  - destruct F as (_ & r & _ & Or' & N). rewrite <- O in Or'. injection Or' as <-. cbn in N. congruence.
  - destruct F as (r & Hr & Or' & _ & C6 & _). rewrite <- O in Or'. injection Or' as <-. cbn in C6.
    destruct H as (AV & _). unfold available in AV. rewrite R in AV. destruct (flag_at k_comp6 lim (position a)); [pose proof (proj2 C6 eq_refl) as XX; discriminate XX|].
    destruct AV as (_ & [AV|(_ & PO & _)]).
    + destruct AV as (_ & _ & c & rr & _ & AV). apply assoc_in, digit_table_in in AV. destruct AV as (_ & _ & _ & _ & r' & ch & kk & _ & Or' & _ & K).
      rewrite <- O in Or'. injection Or' as <-. destruct K; discriminate.
    + unfold punc_ok in PO. rewrite <- O in PO. apply (tr_postpunc _ _ _ _ _ _ _ _ (restricted _ _ _ _ _ _ _ _ _ T)) in PO.
      destruct PO as (u & A1 & A2 & A3 & _). eauto.
  - destruct F as (_ & c & rr & _ & _ & [X|(r & _ & Or' & D)]); [congruence|]. rewrite <- O in Or'. injection Or' as <-. destruct D as (z & [D|D]); destruct D.
Qed.

(** ** C26 *)
Lemma signs_of_position : forall input spans out, trace input spans = Ok out ->
  exists sp em caps,
    enriched m input spans = Ok sp /\
    emph_precompute sort (in_emph (mt_indicators m)) input sp = Ok em /\
    caps_placed (mt_indicators m) input = Ok caps /\
    forall p, signs_put out p = signs_at (mt_indicators m) lower input sp em caps p /\ boundary out p \/
              signs_put out p = [] /\ ~ boundary out p.
Proof.
  intros input spans out E. destruct (pass_traced _ _ _ _ _ _ lower upper sort m B DR input spans out SR E) as (sp & em & caps & ind & lim & ts & T).
  exists sp, em, caps. split; [apply T|]. split; [apply T|]. split; [apply T|]. intros p.
  rewrite (signs_at_positions _ _ _ _ _ _ _ _ _ _ B _ _ _ _ _ _ _ _ _ T p), (boundary_stops _ _ _ _ _ _ _ _ _ _ B _ _ _ _ _ _ _ _ _ T p).
  destruct (existsb (Nat.eqb p) (stops 0 ts)) eqn:K.
  - left. apply existsb_exists in K. destruct K as (q & Hq & EQ). apply Nat.eqb_eq in EQ. subst q. split; [|exact Hq].
    apply T. apply stops_spec in Hq. destruct Hq as (a & b & Ets & ->). cbn [plus]. eapply derivation_inside; [apply (mb_rules _ _ _ _ _ _ _ B)|].
    eapply derivation_prefix. rewrite <- Ets. apply T.
  - right. split; [reflexivity|]. intros I. assert (X : existsb (Nat.eqb p) (stops 0 ts) = true); [|congruence].
    apply existsb_exists. exists p. split; [exact I|apply Nat.eqb_refl].
Qed.
(** every sign has the dots of the indicator rule of the table it names, and is put in within the text *)
Theorem C26_signs_come_from_the_table : forall input spans out a t b,
  trace input spans = Ok out -> out = a ++ t :: b -> is_sign t = true ->
  position a <= length input /\ exists r, In r rules /\ r_origin t = Some r /\ sign_dots r = Some (r_output t) /\ r_input t = [].
Proof.
  intros input spans out a t b E Eo S.
  pose proof (C01_lengths_add_up input spans out E) as L. rewrite Eo, position_app in L. split; [lia|].
  destruct (pass_traced _ _ _ _ _ _ lower upper sort m B DR input spans out SR E) as (sp & em & caps & ind & lim & ts & T).
  destruct (piece _ _ _ _ _ _ _ _ _ _ B _ _ _ _ _ _ _ _ _ T a t b Eo) as [(_ & _ & (r & dots & Hr & K & ->))|(X & _)]; [|congruence].
  exists r. auto.
Qed.

(** Signs stand before the text of their position: every piece of text to the left of a sign
    starts at an earlier position. *)
Theorem C26_signs_stand_first : forall input spans out a t b a1 t' a2,
  trace input spans = Ok out -> out = a ++ t :: b -> is_sign t = true ->
  a = a1 ++ t' :: a2 -> is_sign t' = false -> position a1 < position a.
Proof.
  intros input spans out a t b a1 t' a2 E. destruct (pass_traced _ _ _ _ _ _ lower upper sort m B DR input spans out SR E) as (sp & em & caps & ind & lim & ts & T).
  eapply signs_first; eassumption.
Qed.

(** ** C42 *)
(** Backward, a piece chosen by a rule comes out in capitals where the cells (read from left
    to right, [caps_read]) are in a capital word, with its first letter a capital right
    behind a capital sign, and as the rule says otherwise; a character translated on its own
    comes out as it is. *)
Theorem C42_capitals_restored : forall input spans out a t b,
  trace input spans = Ok out -> d = Backward -> out = a ++ t :: b -> is_sign t = false ->
  exists ts lim h u, best src d lim input ts (h, u) /\ reached ts = position a /\
    match h with
    | ByFallback => t = u
    | _ =>
        let capital_word := exists c tk, capital_cells is_alphabetic d x rules c /\
              caps_read c tk /\ flat_map token_text tk = input /\ upper_position tk (position a) in
        let capital_letter := exists c tk, capital_cells is_alphabetic d x rules c /\
              caps_read c tk /\ flat_map token_text tk = input /\ title_position tk (position a) /\ position a < length input in
        (capital_word /\ r_output t = flat_map upper (r_output u)) \/
        (~ capital_word /\ capital_letter /\
           r_output t = match r_output u with [] => [] | c :: r => upper c ++ r end) \/
        (~ capital_word /\ ~ capital_letter /\ r_output t = r_output u)
    end.
Proof.
  intros input spans out a t b E DB Eo S.
  destruct (pass_traced _ _ _ _ _ _ lower upper sort m B DR input spans out SR E) as (sp & em & caps & ind & lim & ts & T).
  destruct (text_piece_facts _ _ _ _ _ _ _ _ _ _ _ _ T Eo S) as (ts1 & h & u & R & H & Et & _).
  exists ts1, lim, h, u. split; [exact H|]. split; [exact R|].
  pose proof (tr_upper _ _ _ _ _ _ _ _ (restricted _ _ _ _ _ _ _ _ _ T) (position a)) as RU.
  pose proof (tr_title _ _ _ _ _ _ _ _ (restricted _ _ _ _ _ _ _ _ _ T) (position a)) as RT.
  assert (G : t = cased upper d lim (position a) u ->
    let capital_word := exists c tk, capital_cells is_alphabetic d x rules c /\
              caps_read c tk /\ flat_map token_text tk = input /\ upper_position tk (position a) in
        let capital_letter := exists c tk, capital_cells is_alphabetic d x rules c /\
              caps_read c tk /\ flat_map token_text tk = input /\ title_position tk (position a) /\ position a < length input in
        (capital_word /\ r_output t = flat_map upper (r_output u)) \/
        (~ capital_word /\ capital_letter /\
           r_output t = match r_output u with [] => [] | c :: r => upper c ++ r end) \/
        (~ capital_word /\ ~ capital_letter /\ r_output t = r_output u)).
  { intros -> cw cl. unfold cased. rewrite DB. change (flag_at k_uppercase lim (position a) = true <-> cw) in RU.
    change (flag_at k_titlecase lim (position a) = true <-> cl) in RT.
    destruct (flag_at k_uppercase lim (position a)) eqn:K1; [left; split; [apply RU; reflexivity|reflexivity]|right].
    assert (N1 : ~ cw) by (intros Q; apply RU in Q; discriminate).
    destruct (flag_at k_titlecase lim (position a)) eqn:K2; [left; split; [exact N1|]; split; [apply RT; reflexivity|reflexivity]|right].
    split; [exact N1|]. split; [intros Q; apply RT in Q; discriminate|reflexivity]. }
  destruct h; [apply G, Et|apply G, Et|exact Et].
Qed.
End Main.
Print Assumptions C01_pieces_cover_the_input.
Print Assumptions C01_lengths_add_up.
Print Assumptions C02_main_pass_ends.
Print Assumptions C02_main_pass_ends_without_emphasis.
Print Assumptions C06_every_choice_is_the_strongest.
Print Assumptions C06_nothing_is_left.
Print Assumptions C07_main_pass_no_insertion_twice.
Print Assumptions C08_nocross_rules_do_not_cross.
Print Assumptions C08_nocross_rules_are_used.
Print Assumptions C09_no_contraction_in_numbers.
Print Assumptions C10_computer_braille.
Print Assumptions C12_prepunc_before_words.
Print Assumptions C12_postpunc_behind_words.
Print Assumptions C26_signs_stand_first.
Print Assumptions C26_signs_come_from_the_table.
Print Assumptions C42_capitals_restored.
