(** The main pass as a whole: scanner, indicators, restrictions and loop of a compiled table. *)
From Coq Require Import Permutation.
From Verif Require Import Base BaseProofs RuleModel TranslationModel TranslationProofs TableModel RegexpModel
  RegexpSpec PatternModel MatchProofs TrieModel TrieProofs PropTrie
  HyphenationModel HyphenationProofs LoopModel LoopProofs MultipassProofs PrimaryProofs PrimaryTrace CompileModel CompileSpec
  CompileProofs MainTable ConstraintModel ConstraintSpec ConstraintProofs IndicatorModel IndicatorProofs
  CapsSpec CapsProofs CapsFacts EmphSpec EmphProofs MainSpec StepProofs TraceSpec.

(** ** A built table, whatever the iteration orders of its hash maps *)
Section Built.
Variable is_alphabetic : char -> bool.
Variable compat : bool.
Variable read_dictionary : str -> tres hyph.
Variable d : direction.
Variable x : context.
Variable rules : list rule.

Definition permuting (order : list str -> list str) : Prop := forall l, Permutation (order l) l.
Definition same_letter (a b : option letter_ind) : Prop :=
  match a, b with
  | None, None => True
  | Some a, Some b => shuffle (li_trie a) (li_trie b) /\ li_sign b = li_sign a /\ li_letters b = li_letters a /\
      li_spaces b = li_spaces a /\ li_never b = li_never a /\ li_after b = li_after a /\ li_before b = li_before a
  | _, _ => False
  end.
Definition same_nocont (a b : option nocont_ind) : Prop :=
  match a, b with
  | None, None => True
  | Some a, Some b => shuffle (no_trie a) (no_trie b) /\ no_sign b = no_sign a
  | _, _ => False
  end.
Definition indicators_built (i : indicators) : Prop :=
  exists order1 order2 i0, permuting order1 /\ permuting order2 /\
    build_indicators compat x rules order1 order2 = TOk i0 /\
    in_comp i = in_comp i0 /\ in_emph i = in_emph i0 /\ in_numeric i = in_numeric i0 /\ in_caps i = in_caps i0 /\
    same_letter (in_letter i0) (in_letter i) /\ same_nocont (in_nocont i0) (in_nocont i).
Record main_built (m : main_table) : Prop := mk_main_built {
  mb_rules : compiled compat read_dictionary d x rules (mt_rules m);
  mb_indicators : indicators_built (mt_indicators m);
  mb_constrainers : mt_constrainers m = build_constrainers is_alphabetic read_dictionary d x rules;
  mb_scanner : mt_scanner m = build_scanner x rules }.
Lemma main_compile_built order1 order2 m : permuting order1 -> permuting order2 ->
  main_compile is_alphabetic compat read_dictionary order1 order2 d x rules = TOk m -> main_built m.
Proof.
  intros O1 O2. unfold main_compile. destruct (primary_compile compat read_dictionary d x rules) as [p| |] eqn:Ep; try discriminate.
  cbn [tbind]. destruct (build_indicators compat x rules order1 order2) as [i| |] eqn:Ei; try discriminate. cbn [tbind].
  intros [= <-]. constructor; cbn [mt_rules mt_indicators mt_constrainers mt_scanner]; auto.
  - exists p. split; [exact Ep|]. split; [apply shuffle_refl|]. split; [apply shuffle_refl|]. split; [apply shuffle_refl|]. repeat split.
  - exists order1, order2, i. split; [exact O1|]. split; [exact O2|]. split; [exact Ei|].
    do 4 (split; [reflexivity|]). split.
    + destruct (in_letter i); cbn; [split; [apply shuffle_refl|repeat split]|exact Coq.Init.Logic.I].
    + destruct (in_nocont i); cbn; [split; [apply shuffle_refl|repeat split]|exact Coq.Init.Logic.I].
Qed.

(** ** The sources of a table, by its rules *)
Section Sources.
Variable lower : char -> list char.
Notation ctx := (trie_ctx d x).
(** a rule in force among the entries [l] that applies at a place *)
Definition rule_offers (l : list ins_args) (rest : str) (prev : option char) (u : resolved) : Prop :=
  exists full a, in_force compat ctx d l full a /\ applies lower ctx d a rest prev /\ u = offer ctx d full a.
Definition pattern_offers (l : list cpat) (e : env) (at_start : bool) (rest : str) (u : resolved) : Prop :=
  exists p, In p l /\ cpat_find lower p e at_start rest = Ok (Some u).
(** the character's own definition, else the undefined dots, else its code *)
Definition character_offers (c : char) (u : resolved) : Prop :=
  match character_lookup d x rules compat c with
  | Some t => u = t
  | None => match undefined_dots rules with
            | Some dots => u = resolved_new [c] dots 1 Main None
            | None => exists h, handle_undefined (x_defs x) c = Ok h /\ u = resolved_new [c] h 1 Main None
            end
  end.
Definition rule_sources : sources := mk_sources
  (rule_offers (main_entries d x rules)) (rule_offers (nocross_entries x rules)) (rule_offers (comp6_entries x rules))
  (pattern_offers (flat_map (match_entries x) rules) env_new) (pattern_offers (flat_map (context_entries x) rules))
  (fun c u => assoc c (digit_table d rules) = Some u) character_offers.

Lemma cpats_find_In ps e b rest l : cpats_find lower ps e b rest = Ok l ->
  forall u, In u l <-> pattern_offers ps e b rest u.
Proof.
  unfold pattern_offers. revert l. induction ps as [|p ps IH]; intros l; cbn [cpats_find].
  - intros [= <-] u. split; [intros []|intros (p & [] & _)].
  - destruct (cpat_find lower p e b rest) as [o| |] eqn:E; try discriminate. cbn [bind].
    destruct (cpats_find lower ps e b rest) as [l'| |]; try discriminate. cbn [bind]. intros [= <-] u.
    specialize (IH l' eq_refl u).
    assert (Q : In u (match o with Some r => r :: l' | None => l' end) <-> o = Some u \/ In u l').
    { destruct o as [r|]; cbn [In]; [split; (intros [H|H]; [left; congruence|auto])|].
      split; [auto|intros [[=]|H]; exact H]. }
    rewrite Q, IH. split.
    + intros [->|(q & Hq & F)]; [exists p; split; [left; reflexivity|exact E]|exists q; split; [right; exact Hq|exact F]].
    + intros (q & [<-|Hq] & F); [left; congruence|right; eauto].
Qed.
Lemma cpats_find_total ps e b rest : Forall pat_ok ps -> exists l, cpats_find lower ps e b rest = Ok l.
Proof.
  intros F. destruct (cpats_find_offered lower (like lower) pat_ok (length rest) e b rest) with (ps := ps) as (l & El & _); eauto.
  intros q Hq. apply pat_find; auto.
Qed.
Lemma sources_same p : compiled compat read_dictionary d x rules p -> same_sources (table_sources lower p) rule_sources.
Proof.
  intros C. pose proof (compiled_ok compat read_dictionary d x rules lower p C) as OK.
  pose proof C as (p0 & E & S1 & S2 & S3 & E1 & E2 & E3 & E4 & E5 & E6 & E7).
  destruct (compile_spec _ _ _ _ _ _ E) as (I1 & I2 & I3 & I4 & I5 & I6 & I7 & I8 & I9 & I10).
  pose proof (pats_ok lower p OK) as PO. unfold pats in PO. apply Forall_app in PO. destruct PO as [PM PC].
  constructor; cbn [table_sources rule_sources by_text by_nocross by_comp6 by_match by_context as_digit by_character].
  - intros. eapply lookup_main, C.
  - intros. eapply lookup_nocross, C.
  - intros. eapply lookup_comp6, C.
  - intros b rest u. rewrite <- I5, <- E2. destruct (cpats_find_total (p_match p) env_new b rest PM) as (l & El).
    rewrite <- (cpats_find_In _ _ _ _ _ El). split; [intros (l' & El' & H); congruence|eauto].
  - intros e b rest u. rewrite <- I6, <- E3. destruct (cpats_find_total (p_context p) e b rest PC) as (l & El).
    rewrite <- (cpats_find_In _ _ _ _ _ El). split; [intros (l' & El' & H); congruence|eauto].
  - intros c u. rewrite E4, I7. reflexivity.
  - intros c u. unfold fallback_piece, character_offers. rewrite E1, I4, E5, I8, E7, I10.
    destruct (character_lookup d x rules compat c) as [t|]; [split; congruence|].
    destruct (undefined_dots rules) as [dots|]; [split; congruence|].
    destruct (handle_undefined (x_defs x) c) as [h| |]; cbn [bind].
    + split; [intros [= <-]; eauto|intros (h' & [= <-] & ->); reflexivity].
    + split; [discriminate|intros (h' & [=] & _)].
    + split; [discriminate|intros (h' & [=] & _)].
Qed.
End Sources.

(** ** The restrictions *)
Lemma last_some_In {A} (f : rule -> option A) a : last_some rules f = Some a -> exists r, In r rules /\ f r = Some a.
Proof.
  unfold last_some. assert (G : forall l best, fold_left (fun b r => match f r with Some a => Some a | None => b end) l best = Some a ->
    best = Some a \/ exists r, In r l /\ f r = Some a).
  { induction l as [|r l IH]; intros best; cbn [fold_left]; [auto|]. intros H. apply IH in H. destruct H as [H|(q & Hq & H)].
    - destruct (f r) eqn:E; [right; exists r; split; [left; reflexivity|congruence]|auto].
    - right. exists q. split; [right; exact Hq|exact H]. }
  intros H. apply G in H. destruct H as [H|H]; [discriminate|exact H].
Qed.
(** a dictionary is the result of parsing some text *)
Definition dictionaries_read : Prop := forall path h, read_dictionary path = TOk h ->
  exists trim u8n l1n pu lines, hyph_parse trim u8n l1n pu lines = inr h.
Lemma built_cells p : dictionaries_read -> compiled compat read_dictionary d x rules p ->
  cells_ok (build_constrainers is_alphabetic read_dictionary d x rules).
Proof.
  intros DR C. destruct C as (p0 & E & _). destruct (compile_spec _ _ _ _ _ _ E) as (I1 & _).
  assert (NE : forall f dots, (forall r, f r = Some dots -> indicator_entries d rules r =
       if (is_backward d && negb (is_letter_dots d rules dots))%bool
       then [mk_ins [] dots None None (rule_precedence r) [] Main (Some r)] else []) ->
     backward_dots d rules f = Some dots -> dots <> []).
  { intros f dots F H Z. subst dots. unfold backward_dots in H. destruct (is_backward d) eqn:BW; [|discriminate].
    apply last_some_In in H. destruct H as (r & Hr & H). destruct (f r) as [dots|] eqn:Ef; [|discriminate].
    destruct (is_letter_dots d rules dots) eqn:LD; [discriminate|]. injection H as ->. specialize (F r Ef). rewrite LD in F. cbn in F.
    assert (X : trie_insert_all compat (trie_ctx d x) d node_empty (main_entries d x rules) = TPanic).
    { apply C15_insert_panics_only_on_empty_text. eexists. split.
      - unfold main_entries. apply in_or_app. right. apply in_flat_map. exists r. split; [exact Hr|].
        unfold main_entries_of. apply in_or_app. right. apply in_or_app. left. rewrite F. left. reflexivity.
      - unfold is_backward in BW. destruct d; [discriminate|reflexivity]. }
    congruence. }
  constructor; cbn [build_constrainers kc_caps kc_number kc_hyphen].
  - intros u dots Eu Hd. unfold build_caps in Eu.
    assert (Ed : bc_letter u = backward_dots d rules (fun r => match r with RCapsletter dots _ => Some dots | _ => None end)).
    { destruct (backward_dots d rules (fun r => match r with RCapsletter dots _ => Some dots | _ => None end)) eqn:Q1;
      destruct (backward_dots d rules (fun r => match r with RBegcapsword dots _ => Some dots | _ => None end)); try discriminate; injection Eu as <-; auto. }
    rewrite Ed in Hd. eapply NE; [|exact Hd]. intros r. destruct r; try discriminate. intros [= <-]. reflexivity.
  - intros u dots Eu Hd. unfold build_caps in Eu.
    assert (Ed : bc_begword u = backward_dots d rules (fun r => match r with RBegcapsword dots _ => Some dots | _ => None end)).
    { destruct (backward_dots d rules (fun r => match r with RCapsletter dots _ => Some dots | _ => None end)) eqn:Q1;
      destruct (backward_dots d rules (fun r => match r with RBegcapsword dots _ => Some dots | _ => None end)); try discriminate; injection Eu as <-; auto. }
    rewrite Ed in Hd. eapply NE; [|exact Hd]. intros r. destruct r; try discriminate. intros [= <-]. reflexivity.
  - intros u dots Eu Hd. unfold build_number in Eu.
    assert (Ed : bn_sign u = backward_dots d rules (fun r => match r with RNumsign dots => Some dots | _ => None end)).
    { destruct (backward_dots d rules (fun r => match r with RNumsign dots => Some dots | _ => None end)); [|discriminate].
      injection Eu as <-. reflexivity. }
    rewrite Ed in Hd. eapply NE; [|exact Hd]. intros r. destruct r; try discriminate. intros [= <-]. reflexivity.
  - intros u dots Eu Hd. unfold build_number in Eu.
    assert (Ed : bn_end u = backward_dots d rules (fun r => match r with RNonumsign dots _ => Some dots | _ => None end)).
    { destruct (backward_dots d rules (fun r => match r with RNumsign dots => Some dots | _ => None end)); [|discriminate].
      injection Eu as <-. reflexivity. }
    rewrite Ed in Hd. eapply NE; [|exact Hd]. intros r. destruct r; try discriminate. intros [= <-]. reflexivity.
  - intros h letters Eh. unfold build_hyphen in Eh. destruct (is_backward d); [discriminate|].
    destruct (last_some rules _) as [h'|] eqn:EL; [|discriminate]. injection Eh as <- _.
    apply last_some_In in EL. destruct EL as (r & _ & F). destruct r; try discriminate.
    destruct (read_dictionary path) as [h''| |] eqn:ER; try discriminate. injection F as ->.
    destruct (DR _ _ ER) as (a1 & a2 & a3 & a4 & lines & HP). exact (hyph_parse_wf _ _ _ _ _ _ HP).
Qed.

(** ** The indications *)
(** the signs of all indicators for a position, in the order they are put out *)
Definition caps_placed (i : indicators) (chars : str) : res (list placed) :=
  match in_caps i with Some u => caps_precompute u chars | None => Ok [] end.
Definition signs_here (p : nat) (l : list placed) : list resolved := map snd (here p l).
Definition signs_at (i : indicators) (lower : char -> list char) (chars : str) (spans : list span)
           (em caps : list placed) (p : nat) : list resolved :=
  signs_here p (opt_placed (in_comp i) (fun u => comp_precompute u chars spans)) ++
  signs_here p em ++
  signs_here p (opt_placed (in_numeric i) (fun u => numeric_precompute u chars)) ++
  signs_here p (opt_placed (in_letter i) (fun u => letter_precompute lower u chars)) ++
  signs_here p caps ++
  signs_here p (opt_placed (in_nocont i) (fun u => nocont_precompute lower u chars)).

(** the sorting of the emphasis events returns *)
Definition sort_returns (sort : list event -> res (list event)) (l : list event) : Prop :=
  length l <= 20 \/ exists l', sort l = Ok l' /\ Permutation l l'.
(** a sign of an indicator rule of the table *)
Definition rule_sign (t : resolved) : Prop := exists r dots, In r rules /\ sign_dots r = Some dots /\ t = sign dots r.
Lemma rule_sign_fields t : rule_sign t -> r_length t = 0 /\ r_input t = [] /\ r_effects t = [].
Proof. intros (r & dots & _ & _ & ->). cbn. auto. Qed.
Lemma get_sign (f : rule -> option str) t : (forall r dots, f r = Some dots -> sign_dots r = Some dots) ->
  last_some rules (fun r => match f r with Some dots => Some (sign dots r) | None => None end) = Some t -> rule_sign t.
Proof.
  intros F H. apply last_some_In in H. destruct H as (r & Hr & H). destruct (f r) as [dots|] eqn:E; [|discriminate]. injection H as <-.
  exists r, dots. eauto.
Qed.
Lemma numeric_sign u : build_numeric_ind x rules = Some u -> rule_sign (ni_start u) /\ forall t, ni_end u = Some t -> rule_sign t.
Proof.
  unfold build_numeric_ind. destruct (last_some rules _) as [t|] eqn:E; [|discriminate]. destruct (is_empty (digits x)); [discriminate|].
  intros [= <-]. cbn [ni_start ni_end]. apply last_some_In in E. destruct E as (r & Hr & E). destruct r; try discriminate. injection E as <-.
  split; [eexists; eexists; split; [exact Hr|split; reflexivity]|]. intros t E. apply last_some_In in E. destruct E as (r & Hr' & E).
  destruct r; try discriminate. injection E as <-. eexists; eexists; split; [exact Hr'|split; reflexivity].
Qed.
Lemma comp_sign u : build_comp_ind rules = Some u -> rule_sign (ci_beg u) /\ forall t, ci_end u = Some t -> rule_sign t.
Proof.
  unfold build_comp_ind. destruct (last_some rules _) as [t|] eqn:E; [|discriminate].
  intros [= <-]. cbn [ci_beg ci_end]. apply last_some_In in E. destruct E as (r & Hr & E). destruct r; try discriminate. injection E as <-.
  split; [eexists; eexists; split; [exact Hr|split; reflexivity]|]. intros t E. apply last_some_In in E. destruct E as (r & Hr' & E).
  destruct r; try discriminate. injection E as <-. eexists; eexists; split; [exact Hr'|split; reflexivity].
Qed.
Lemma last_rule_In f dots r : last_rule rules f = Some (dots, r) -> In r rules /\ f r = Some dots.
Proof.
  unfold last_rule. intros H. apply last_some_In in H. destruct H as (q & Hq & H). destruct (f q) eqn:E; [|discriminate].
  injection H as -> ->. auto.
Qed.
Lemma nocont_sign order u : build_nocont_ind compat x rules order = TOk (Some u) -> rule_sign (no_sign u).
Proof.
  unfold build_nocont_ind. destruct (last_rule rules _) as [[dots r]|] eqn:E; [|discriminate]. apply last_rule_In in E.
  destruct (is_empty (contractions rules)); [discriminate|]. destruct (contraction_trie _ _ _ _ _ _) as [n| |]; try discriminate. cbn [tbind].
  intros [= <-]. cbn. destruct E as [E1 E2]. exists r, dots. split; [exact E1|]. split; [destruct r; try discriminate; exact E2|reflexivity].
Qed.
Lemma letter_sign order u : build_letter_ind compat x rules order = TOk (Some u) -> rule_sign (li_sign u).
Proof.
  unfold build_letter_ind. destruct (last_rule rules _) as [[dots r]|] eqn:E; [|discriminate]. apply last_rule_In in E.
  destruct (contraction_trie _ _ _ _ _ _) as [n| |]; try discriminate. cbn [tbind].
  intros [= <-]. cbn. destruct E as [E1 E2]. exists r, dots. split; [exact E1|]. split; [destruct r; try discriminate; exact E2|reflexivity].
Qed.
Lemma caps_sign u t : build_caps_ind x rules = Some u ->
  In (Some t) [ui_letter u; ui_begword u; ui_endword u; ui_beg u; ui_end u; ui_begphrase u; ui_endphrase u] -> rule_sign t.
Proof.
  unfold build_caps_ind. match goal with |- (if caps_indicating ?v then _ else _) = _ -> _ => destruct (caps_indicating v) end; [|discriminate].
  intros [= <-]. cbn [ui_letter ui_begword ui_endword ui_beg ui_end ui_begphrase ui_endphrase In].
  intros H. repeat (destruct H as [H|H]; [eapply get_sign; [|exact H]; intros r dots EE; destruct r; try discriminate; exact EE|]). destruct H.
Qed.
Lemma emph_sign u t : In u (build_emph x rules) -> In (Some t) (class_signs u) -> rule_sign t.
Proof.
  unfold build_emph. rewrite filter_In, in_map_iff. intros ((name & <- & _) & _). unfold build_emph_class, class_signs.
  cbn [em_letter em_beg em_end em_begword em_endword em_begphrase em_endphrase In].
  intros H.
  assert (G : forall (f : rule -> option str) (own : rule -> bool), (forall r dots, f r = Some dots -> sign_dots r = Some dots) -> last_some rules (fun r => if own r then
     match f r with Some dots => Some (sign dots r) | None => None end else None) = Some t -> rule_sign t).
  { intros f own F E. apply last_some_In in E. destruct E as (r & Hr & E). destruct (own r); [|discriminate].
    destruct (f r) as [dots|] eqn:Ef; [|discriminate]. injection E as <-. exists r, dots. eauto. }
  repeat (destruct H as [H|H]; [eapply (G _ (fun r => match emph_name r with Some n => str_eqb n name | None => false end)); [|exact H]; intros r dots EE; destruct r; try discriminate; exact EE|]). destruct H.
Qed.
Lemma here_map {A} p (l : list (nat * A)) : here p l = filter (fun x => Nat.eqb (fst x) p) l.
Proof. reflexivity. Qed.

Lemma indications_spec i lower sort chars spans : indicators_built i ->
  sort_returns sort (emph_events (in_emph i) 0 chars spans) ->
  exists em caps ind, emph_precompute sort (in_emph i) chars spans = Ok em /\ caps_placed i chars = Ok caps /\
    indications_of lower sort i chars spans = Ok ind /\ length ind = S (length chars) /\
    (forall p, p <= length chars -> nth p ind [] = signs_at i lower chars spans em caps p) /\
    (forall ts t, In ts ind -> In t ts -> rule_sign t).
Proof.
  intros (o1 & o2 & i0 & O1 & O2 & EB & E1 & E2 & E3 & E4 & E5 & E6) SR.
  unfold build_indicators in EB. destruct (build_letter_ind compat x rules o1) as [li| |] eqn:EL; try discriminate. cbn [tbind] in EB.
  destruct (build_nocont_ind compat x rules o2) as [nc| |] eqn:EN; try discriminate. cbn [tbind] in EB. injection EB as <-.
  cbn [in_comp in_emph in_numeric in_caps in_letter in_nocont] in *.
  assert (EM : exists es, event_sort sort (emph_events (in_emph i) 0 chars spans) = Ok es /\ Permutation (emph_events (in_emph i) 0 chars spans) es).
  { unfold event_sort. destruct (Nat.leb_spec (length (emph_events (in_emph i) 0 chars spans)) 20) as [L|L].
    - eexists. split; [reflexivity|]. apply insertion_sort_facts.
    - destruct SR as [SR|SR]; [lia|exact SR]. }
  destruct EM as (es & Ees & Pes).
  set (em := map (fun e => (ev_pos e, ev_sign e)) es).
  assert (Eem : emph_precompute sort (in_emph i) chars spans = Ok em) by (unfold emph_precompute; rewrite Ees; reflexivity).
  assert (Iem : Forall (fun x => fst x <= length chars /\ rule_sign (snd x)) em).
  { apply Forall_forall. intros y Hy. apply in_map_iff in Hy. destruct Hy as (e & <- & He).
    apply (Permutation_in _ (Permutation_sym Pes)) in He. apply emph_events_In in He. destruct He as (k & u & Eu & He).
    apply events_inside in He. destruct He as (H1 & H2 & _). cbn [fst snd]. split; [exact H1|].
    apply nth_error_In in Eu. rewrite E2 in Eu. eapply emph_sign; eauto. }
  assert (CP : exists caps, caps_placed i chars = Ok caps /\ Forall (fun x => fst x <= length chars /\ rule_sign (snd x)) caps).
  { unfold caps_placed. destruct (in_caps i) as [u|] eqn:Eu; [|exists []; auto].
    destruct (caps_total u chars) as (l & El & F). exists l. split; [exact El|]. eapply Forall_impl; [|exact F].
    intros [p t] [A B]. split; [exact A|]. eapply caps_sign; eauto. }
  destruct CP as (caps & Ecaps & Icaps).
  assert (Icomp : Forall (fun x => fst x <= length chars /\ rule_sign (snd x)) (opt_placed (in_comp i) (fun u => comp_precompute u chars spans))).
  { destruct (in_comp i) as [u|] eqn:Eu; cbn [opt_placed]; [|constructor]. symmetry in E1. destruct (comp_sign u E1) as [S1 S2].
    apply Forall_forall. intros [p t] H. apply comp_precompute_spec in H. destruct H as (s & a & e & _ & (_ & -> & -> & L) & H).
    cbn [fst snd]. destruct H as [[-> ->]|[-> H]]; (split; [lia|auto]). }
  assert (Inum : Forall (fun x => fst x <= length chars /\ rule_sign (snd x)) (opt_placed (in_numeric i) (fun u => numeric_precompute u chars))).
  { destruct (in_numeric i) as [u|] eqn:Eu; cbn [opt_placed]; [|constructor]. symmetry in E3. destruct (numeric_sign u E3) as [S1 S2].
    apply Forall_forall. intros [p t] H. apply numeric_signs_spec in H. cbn [fst snd]. destruct H as [[-> ((c & H & _) & _)]|(H & (_ & _ & _ & L) & _)].
    - split; [|exact S1]. assert (p < length chars) by (apply nth_error_Some; congruence). lia.
    - split; [lia|auto]. }
  assert (Ilet : Forall (fun x => fst x <= length chars /\ rule_sign (snd x)) (opt_placed (in_letter i) (fun u => letter_precompute lower u chars))).
  { destruct (in_letter i) as [u|] eqn:Eu; cbn [opt_placed]; [|constructor]. destruct li as [v|]; [|destruct E5].
    destruct E5 as (_ & Es & _). pose proof (letter_sign _ _ EL) as S1. rewrite <- Es in S1.
    apply Forall_forall. intros [p t] H. unfold letter_precompute in H. apply in_map_iff in H. destruct H as (q & [= <- <-] & H).
    apply filter_In in H. destruct H as [H _]. apply in_seq in H. cbn [fst snd]. split; [lia|exact S1]. }
  assert (Inoc : Forall (fun x => fst x <= length chars /\ rule_sign (snd x)) (opt_placed (in_nocont i) (fun u => nocont_precompute lower u chars))).
  { destruct (in_nocont i) as [u|] eqn:Eu; cbn [opt_placed]; [|constructor]. destruct nc as [v|]; [|destruct E6].
    destruct E6 as (_ & Es). pose proof (nocont_sign _ _ EN) as S1. rewrite <- Es in S1.
    apply Forall_forall. intros [p t] H. apply nocont_spec in H. destruct H as (-> & L & _). cbn [fst snd]. split; [lia|exact S1]. }
  set (all := opt_placed (in_comp i) (fun u => comp_precompute u chars spans) ++ em ++
     opt_placed (in_numeric i) (fun u => numeric_precompute u chars) ++
     opt_placed (in_letter i) (fun u => letter_precompute lower u chars) ++ caps ++
     opt_placed (in_nocont i) (fun u => nocont_precompute lower u chars)).
  assert (Iall : Forall (fun x => fst x <= length chars /\ rule_sign (snd x)) all).
  { unfold all. repeat (apply Forall_app; split); assumption. }
  exists em, caps, (map (fun pos => map snd (here pos all)) (List.seq 0 (S (length chars)))).
  split; [exact Eem|]. split; [exact Ecaps|]. split.
  { unfold indications_of. rewrite Eem. cbn [bind]. unfold caps_placed in Ecaps. rewrite Ecaps. cbn [bind].
    change (all_placed (length chars) all = Ok (map (fun pos => map snd (here pos all)) (List.seq 0 (S (length chars))))). unfold all_placed.
    assert (FB : forallb (fun x => Nat.leb (fst x) (length chars)) all = true).
    { apply forallb_forall. intros y Hy. rewrite Forall_forall in Iall. apply Nat.leb_le. apply (Iall y Hy). }
    match goal with |- (if ?b then _ else _) = _ => replace b with true by (symmetry; exact FB) end. reflexivity. }
  split; [rewrite map_length, seq_length; reflexivity|]. split.
  - intros p L. set (g := fun pos => map snd (here pos all)).
    rewrite (nth_indep _ [] (g 0)) by (rewrite map_length, seq_length; lia). rewrite map_nth, seq_nth by lia. cbn [plus].
    unfold g, signs_at, signs_here, all, here. rewrite !filter_app, !map_app. reflexivity.
  - intros ts t Hts Ht. apply in_map_iff in Hts. destruct Hts as (q & <- & _). apply in_map_iff in Ht. destruct Ht as (y & <- & Hy).
    apply filter_In in Hy. rewrite Forall_forall in Iall. apply (Iall y), Hy.
Qed.

(** ** The pass *)
Section Pass.
Variable lower upper : char -> list char.
Variable sort : list event -> res (list event).
Variable m : main_table.
Hypothesis B : main_built m.
Hypothesis DR : dictionaries_read.
(** how a trace comes about *)
Record traced (input : str) (spans sp : list span) (em caps : list placed) (ind : list (list resolved))
       (lim : pos_flags) (ts : list step) (out : list resolved) : Prop := mk_traced {
  tc_spans : enriched m input spans = Ok sp;
  tc_emph : emph_precompute sort (in_emph (mt_indicators m)) input sp = Ok em;
  tc_caps : caps_placed (mt_indicators m) input = Ok caps;
  tc_ind_length : length ind = S (length input);
  tc_ind : forall p, p <= length input -> nth p ind [] = signs_at (mt_indicators m) lower input sp em caps p;
  tc_signs : forall l t, In l ind -> In t l -> rule_sign t;
  tc_limits : restrictions (build_constrainers is_alphabetic read_dictionary d x rules) input sp lim;
  tc_steps : derivation (rule_sources lower) d lim input ts;
  tc_end : finished (rule_sources lower) d lim input ts;
  tc_out : out = written upper d lim ind 0 true ts;
  tc_cover : cover lower input out }.
Lemma pass_from input spans sp : enriched m input spans = Ok sp ->
  sort_returns sort (emph_events (in_emph (mt_indicators m)) 0 input sp) ->
  exists em caps ind lim ts out, main_trace lower upper sort m input spans = Ok out /\
    traced input spans sp em caps ind lim ts out.
Proof.
  intros ES SR. destruct B as [B1 B2 B3 B4].
  destruct (indications_spec (mt_indicators m) lower sort input sp B2 SR) as (em & caps & ind & E1 & E2 & E3 & E4 & E5 & E6).
  destruct (limits_spec (mt_constrainers m) input sp) as (lim & E7 & E8); [rewrite B3; eapply built_cells; eauto|].
  pose proof (compiled_ok compat read_dictionary d x rules lower _ B1) as OK.
  assert (IO : indications_ok ind) by (intros l t H1 H2; apply rule_sign_fields, (E6 l t); auto).
  destruct (run_derivation lower upper (mt_rules m) ind lim input OK IO) as (out & E9 & ts & D & F & ->).
  assert (ED : p_dir (mt_rules m) = d).
  { destruct B1 as (p0 & E & _ & _ & _ & _ & _ & _ & _ & _ & E' & _). rewrite E'. apply (compile_spec _ _ _ _ _ _ E). }
  rewrite ED in *. pose proof (sources_same lower _ B1) as SS.
  exists em, caps, ind, lim, ts. eexists. split; [|constructor].
  - unfold main_trace. rewrite ES. cbn [bind]. rewrite E3. cbn [bind]. rewrite E7. cbn [bind]. exact E9.
  - exact ES.
  - exact E1.
  - exact E2.
  - exact E4.
  - exact E5.
  - exact E6.
  - rewrite <- B3. exact E8.
  - eapply same_derivation; eauto.
  - eapply same_finished; eauto.
  - reflexivity.
  - apply (run_pieces lower upper (mt_rules m) ind lim input OK IO _ E9).
Qed.
Lemma pass_traced input spans out : sort_rearranges sort -> main_trace lower upper sort m input spans = Ok out ->
  exists sp em caps ind lim ts, traced input spans sp em caps ind lim ts out.
Proof.
  intros SR E. assert (ES : exists sp, enriched m input spans = Ok sp).
  { unfold main_trace in E. destruct (enriched m input spans); try discriminate. eauto. }
  destruct ES as (sp & ES). exists sp.
  assert (SO : sort_returns sort (emph_events (in_emph (mt_indicators m)) 0 input sp)).
  { unfold sort_returns. destruct (Nat.le_gt_cases (length (emph_events (in_emph (mt_indicators m)) 0 input sp)) 20) as [L|L]; [auto|].
    right. unfold main_trace in E. rewrite ES in E. cbn [bind] in E. unfold indications_of, emph_precompute, event_sort in E.
    destruct (Nat.leb_spec (length (emph_events (in_emph (mt_indicators m)) 0 input sp)) 20) as [L'|L']; [lia|].
    destruct (sort (emph_events (in_emph (mt_indicators m)) 0 input sp)) as [l'| |] eqn:El; try discriminate. exists l'. split; [reflexivity|].
    apply SR, El. }
  destruct (pass_from input spans sp ES SO) as (em & caps & ind & lim & ts & out' & E' & T).
  rewrite E in E'. injection E' as <-. exists em, caps, ind, lim, ts. exact T.
Qed.
(** no compbrl trigger starts with a space of the text *)
Definition triggers_on_words (input : str) : Prop := forall k p, mt_scanner m = Some k ->
  trigger_at k input p -> ~ space_at k input p.
Lemma enriched_spec input spans : triggers_on_words input ->
  exists sp, enriched m input spans = Ok sp /\
    forall s, In s sp <-> In s spans \/ exists k, mt_scanner m = Some k /\ triggered k input 0 s.
Proof.
  intros T. unfold enriched, triggers_on_words in *. destruct (mt_scanner m) as [k|].
  - destruct (enrich_spec k input spans (fun p => T k p eq_refl)) as (added & E & H). exists (spans ++ added). split; [exact E|].
    intros s. rewrite H. split; [intros [X|X]; [auto|right; eauto]|intros [X|(k' & [= <-] & X)]; auto].
  - exists spans. split; [reflexivity|]. intros s. split; [auto|intros [X|(k & [=] & _)]; exact X].
Qed.
Lemma pass_total input spans : triggers_on_words input ->
  (forall sp, enriched m input spans = Ok sp -> sort_returns sort (emph_events (in_emph (mt_indicators m)) 0 input sp)) ->
  exists out, main_trace lower upper sort m input spans = Ok out.
Proof.
  intros T SR. destruct (enriched_spec input spans T) as (sp & ES & _).
  destruct (pass_from input spans sp ES (SR sp ES)) as (em & caps & ind & lim & ts & out & E & _). eauto.
Qed.
End Pass.
End Built.
