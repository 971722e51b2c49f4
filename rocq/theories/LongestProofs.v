(** Tables of single characters and plain contractions: the main pass forward. *)
From Coq Require Import Permutation.
From Verif Require Import Base BaseProofs RuleModel ClassSpec TranslationModel TranslationProofs TableModel TableProofs RegexpModel
  RegexpSpec PatternModel MatchProofs WordSpec TrieModel TrieProofs PropTrie
  HyphenationModel HyphenationProofs LoopModel LoopProofs MultipassProofs PrimaryProofs PrimaryTrace CompileModel CompileSpec
  CompileProofs MainTable ConstraintModel ConstraintSpec ConstraintProofs IndicatorModel IndicatorProofs
  CapsSpec CapsProofs CapsFacts EmphSpec EmphProofs MainSpec StepProofs TraceSpec MainPass SignProofs FrameSpec DefinitionSpec PropDefinitions
  UndefinedSpec PropUndefined WordProofs SaysSpec PropRivals LocalSpec LocalProofs LocalPass CaseSpec CaseProofs LongestSpec.

Lemma flat_split {A B} (f : A -> list B) t : (forall r, In r t -> length (f r) <= 1) -> forall l1 a l2, flat_map f t = l1 ++ a :: l2 ->
  exists t1 r t2, t = t1 ++ r :: t2 /\ f r = [a] /\ flat_map f t1 = l1 /\ flat_map f t2 = l2.
Proof.
  induction t as [|r t IH]; intros one l1 a l2 E; cbn [flat_map] in E; [destruct l1; discriminate|].
  pose proof (one r (or_introl eq_refl)) as O. specialize (IH (fun r Hr => one r (or_intror Hr))). destruct (f r) as [|b [|b' l]] eqn:F; cbn [length] in O; [| |lia]; cbn [app] in E.
  - destruct (IH _ _ _ E) as (t1 & r' & t2 & -> & H1 & H2 & H3). exists (r :: t1), r', t2. cbn [flat_map app]. rewrite F, H2. auto.
  - destruct l1 as [|z l1]; cbn [app] in E; injection E as -> E.
    + exists [], r, t. auto.
    + destruct (IH _ _ _ E) as (t1 & r' & t2 & -> & H1 & H2 & H3). exists (r :: t1), r', t2. cbn [flat_map app]. rewrite F, H2. auto.
Qed.
Lemma numeral_unique s1 v : numeral s1 v -> forall s2, numeral s2 v -> s1 = s2.
Proof.
  induction 1 as [c v D|s v c w N IH NZ D]; intros s2 N2.
  - inversion N2 as [c2 v2 D2|s3 v3 c3 w3 N3 NZ3 D3]; subst.
    + f_equal. unfold lower_digit in *. unfold char in *. lia.
    + exfalso. subst. revert D. unfold lower_digit. try (change (v = 16 * v3 + w3)%N in H0). unfold char in *. lia.
  - inversion N2 as [c2 v2 D2|s3 v3 c3 w3 N3 NZ3 D3]; subst.
    + exfalso. revert D D2. unfold lower_digit. try (change (v = 16 * v3 + w3)%N in H0). unfold char in *. lia.
    + change (16 * v3 + w3 = 16 * v + w)%N in H0. assert (v3 = v /\ w3 = w) as [-> ->] by (unfold lower_digit in *; unfold char in *; lia). f_equal; [apply IH, N3|].
      f_equal. unfold lower_digit in *. unfold char in *. lia.
Qed.
Lemma cells_unique defs c s s' : cells_for defs c s -> cells_for defs c s' -> s = s'.
Proof. intros [H|(H & y & F & ->)] [H'|(H' & y' & F' & ->)]; congruence. Qed.
Lemma spelled_unique defs s o o' : spelled defs s o -> spelled defs s o' -> o = o'.
Proof.
  intros (p & F & ->) (p' & F' & ->). f_equal. revert p' F'. induction F as [|c y s p H F IH]; intros p' F'; inversion F' as [|? y' ? q H' F2]; subst; [reflexivity|].
  f_equal; [eapply cells_unique; eauto|apply IH; assumption].
Qed.
Lemma text_begins lower text u : (exists rest, text_matches lower text u rest) <-> begins lower u text.
Proof.
  split.
  - intros (rest & H). induction H as [u|y from c u rest L H (v & w & -> & F)]; [exists [], u; auto|]. exists (c :: v), w. auto.
  - intros (v & w & -> & F). exists w. induction F; cbn [app]; constructor; auto.
Qed.
Lemma begins_length lower u text : begins lower u text -> length text <= length u.
Proof. intros (v & w & -> & F). rewrite app_length. assert (E : length v = length text) by (clear w; induction F; cbn; auto). unfold str, char in *. lia. Qed.
Lemma begins_same lower u a b : begins lower u a -> begins lower u b -> length a = length b -> a = b.
Proof.
  rewrite <- !text_begins. intros (r & H) (r' & H'). revert b r' H'. induction H as [u|y from c u rest L H IH]; intros b r' H' E.
  - destruct b; [reflexivity|discriminate].
  - destruct b as [|z b]; [discriminate|]. inversion H'; subst. f_equal; [congruence|]. eapply IH; eauto.
Qed.

Section Table.
Variable is_alphabetic : char -> bool.
Variable compat : bool.
Variable read_dictionary : str -> tres hyph.
Variable x : context.
Variable table : list rule.
Variable lower upper : char -> list char.
Variable sort : list event -> res (list event).
Variable m : main_table.
Hypothesis B : main_built is_alphabetic compat read_dictionary Forward x table m.
Hypothesis DR : dictionaries_read read_dictionary.
Hypothesis EX : context_compile is_alphabetic compat table = TOk x.
Hypothesis PL : forall r, In r table -> plain r = true.
Hypothesis SORT : sort_rearranges sort.
Notation p := (mt_rules m).
Lemma plain_blind : case_blind table.
Proof.
  constructor.
  - intros r H. apply PL in H. destruct r; try discriminate H; try reflexivity. cbn [plain] in H. destruct w; [|discriminate H].
    cbn [tells_case is_nocross]. destruct (nocross k); [discriminate H|reflexivity].
  - intros r w H Hw. apply PL in H. destruct r; try discriminate H; try (destruct Hw; fail). cbn [plain] in H. destruct w0; [destruct Hw|discriminate H].
Qed.
Lemma no_sign r : In r table -> sign_dots r = None.
Proof. intros H. apply PL in H. destruct r; try discriminate H; reflexivity. Qed.
(** ** The entries *)
Definition entry (r : rule) : list ins_args :=
  match r with
  | RAlways t g _ _ => match dots_of x g t with TOk s => [ins r t s None None []] | _ => [] end
  | _ => []
  end.
Lemma the_entries : main_entries Forward x table = flat_map entry table.
Proof.
  unfold main_entries. cbn [is_backward backward_only]. replace (flat_map (fun r : rule => []) table) with (@nil ins_args) by (clear; induction table; auto). cbn [app].
  generalize table at 1. intros all. revert PL. clear. induction table as [|r l IH]; intros PL; [reflexivity|]. cbn [flat_map]. rewrite IH by (intros q Hq; apply PL; right; exact Hq). f_equal.
  specialize (PL r (or_introl eq_refl)). unfold main_entries_of. cbn [is_backward backward_only app].
  destruct r; try discriminate PL; try reflexivity. cbn [plain] in PL. destruct w; [|discriminate PL]. cbn [indicator_entries app is_nocross]. destruct (nocross k); [discriminate PL|].
  unfold word_entries. cbn [word_insertions entry]. destruct (dots_of x dots chars); reflexivity.
Qed.
Lemma entry_one r : length (entry r) <= 1.
Proof. destruct r; cbn; try lia. destruct (dots_of x dots chars); cbn; lia. Qed.
Lemma entry_always r a : In r table -> In a (entry r) -> exists t g k s, r = RAlways t g k [] /\ dots_of x g t = TOk s /\ a = ins r t s None None [].
Proof.
  intros Hr H. apply PL in Hr. destruct r; try (destruct H; fail). cbn [plain] in Hr. destruct w; [|discriminate Hr]. cbn [entry] in H.
  destruct (dots_of x dots chars) as [s| |] eqn:E; try (destruct H; fail). destruct H as [<-|[]]. exists chars, dots, k, s. auto.
Qed.
Lemma dots_means g t s : dots_of x g t = TOk s <-> means x g t s.
Proof.
  unfold dots_of, means. destruct g; cbn [braille_to_unicode]; [apply resolve_implicit_ok|]. split; [intros E; injection E as <-; reflexivity|intros ->; reflexivity].
Qed.
(** the last always rule for a text *)
Definition last_rule (text dots : str) : Prop := exists g k, the_last table (fun r => exists g k, r = RAlways text g k []) (RAlways text g k []) /\ means x g text dots.
Lemma always_entry text g k : In (RAlways text g k []) table -> exists s, dots_of x g text = TOk s.
Proof.
  intros H. destruct (compiled_words compat read_dictionary x table p (RAlways text g k []) text (mb_rules _ _ _ _ _ _ _ B) H eq_refl) as (l & E).
  cbn [word_insertions] in E. destruct (dots_of x g text); try discriminate E. eauto.
Qed.
Lemma force_last full a : in_force compat (trie_ctx Forward x) Forward (main_entries Forward x table) full a ->
  exists text dots g k, last_rule text dots /\ a = ins (RAlways text g k []) text dots None None [].
Proof.
  intros (l1 & l2 & E & C & _). rewrite the_entries in E. destruct (flat_split entry table (fun r _ => entry_one r) l1 a l2 E) as (t1 & r & t2 & Et & Er & _ & E2).
  assert (Hr : In r table) by (rewrite Et; apply in_elt). destruct (entry_always r a Hr) as (t & g & k & s & -> & D & ->); [rewrite Er; left; reflexivity|].
  exists t, s, g, k. split; [|reflexivity]. exists g, k. split; [|apply dots_means; exact D]. exists t1, t2. split; [exact Et|]. split; [eauto|].
  intros q Hq (g' & k' & ->). destruct (always_entry t g' k') as (s' & D'); [rewrite Et; apply in_app_iff; right; right; exact Hq|].
  assert (I : In (ins (RAlways t g' k' []) t s' None None []) l2) by (rewrite <- E2; apply in_flat_map; exists (RAlways t g' k' []); split; [exact Hq|cbn [entry]; rewrite D'; left; reflexivity]).
  assert (RV : rivals (trie_ctx Forward x) Forward (ins (RAlways t g k []) t s None None []) (ins (RAlways t g' k' []) t s' None None [])) by (split; [reflexivity|split; constructor]).
  destruct compat; [|exact (C _ I RV)]. destruct C as [C _]. apply (C _ I RV). discriminate.
Qed.
Lemma last_force text g k : In (RAlways text g k []) table -> exists full a, in_force compat (trie_ctx Forward x) Forward (main_entries Forward x table) full a /\ i_from a = text.
Proof.
  intros H. destruct (always_entry text g k H) as (s & D).
  destruct (some_in_force compat (trie_ctx Forward x) Forward (main_entries Forward x table) (ins (RAlways text g k []) text s None None [])) as (full & b & F & _ & RV & _).
  - intros b Hb. apply main_oriented in Hb. apply Hb.
  - rewrite the_entries. apply in_flat_map. exists (RAlways text g k []). split; [exact H|]. cbn [entry]. rewrite D. left. reflexivity.
  - exists full, b. split; [exact F|]. symmetry. exact RV.
Qed.
Notation find := (find_translations lower (p_trie p)).
Definition a_piece (t : resolved) (text dots : str) : Prop :=
  r_length t = length text /\ r_weight t = length text /\ r_output t = dots /\ exists g k, r_origin t = Some (RAlways text g k []).
Lemma found_rule rest prev t : In t (find rest prev) -> exists text dots, last_rule text dots /\ text <> [] /\ begins lower rest text /\ a_piece t text dots.
Proof.
  intros H. pose proof (compiled_ok compat read_dictionary Forward x table lower _ (mb_rules _ _ _ _ _ _ _ B)) as OK.
  pose proof (ok_trie _ _ OK rest prev t H) as (_ & L & _).
  apply (lookup_main compat read_dictionary Forward x table lower p (mb_rules _ _ _ _ _ _ _ B)) in H. destruct H as (full & a & F & (r & TM & _) & ->).
  apply force_last in F. destruct F as (text & dots & g & k & LR & ->). exists text, dots. split; [exact LR|]. cbn [sought ins i_from] in TM.
  split; [intros ->; cbn in L; lia|]. split; [apply text_begins; eauto|].
  split; [reflexivity|]. split; [|split; [reflexivity|exists g, k; reflexivity]]. cbn. destruct full; [|reflexivity]. rewrite app_nil_r, map_length. reflexivity.
Qed.
Lemma rule_found rest prev text g k : In (RAlways text g k []) table -> begins lower rest text -> exists t dots, In t (find rest prev) /\ a_piece t text dots.
Proof.
  intros H BG. destruct (last_force text g k H) as (full & a & F & E). pose proof F as F'. apply force_last in F'. destruct F' as (text' & dots & g' & k' & _ & ->).
  cbn [ins i_from] in E. subst text'. exists (offer (trie_ctx Forward x) Forward full (ins (RAlways text g' k' []) text dots None None [])), dots. split.
  - apply (lookup_main compat read_dictionary Forward x table lower p (mb_rules _ _ _ _ _ _ _ B)). exists full, (ins (RAlways text g' k' []) text dots None None []).
    split; [exact F|]. split; [|reflexivity]. apply text_begins in BG. destruct BG as (r & TM). exists r. split; [exact TM|]. split; intros ks [].
  - split; [reflexivity|]. split; [|split; [reflexivity|exists g', k'; reflexivity]]. cbn. destruct full; [|reflexivity]. rewrite app_nil_r, map_length. reflexivity.
Qed.
(** ** Numbers *)
Lemma litdigits c : mem c (digits x) = true <-> a_litdigit table c.
Proof.
  clear B. unfold digits. rewrite cls_chars_has, (compile_classes _ _ _ _ _ _ EX). split.
  - intros H. inversion H as [r k c0 I1 I2|r k cs c0 I1 I2 I3|pre n c0 b' post s E0 D EC|pre n c0 b' post s E0]; subst.
    + destruct r; cbn [explicit_classes In] in I2; repeat match type of I2 with _ \/ _ => destruct I2 as [I2|I2] end; try (destruct I2; fail); try discriminate I2. injection I2 as ->. eexists _, _. exact I1.
    + exfalso. apply PL in I1. destruct r; discriminate.
    + exfalso. match goal with X : class_called n = CLitdigit |- _ => revert X end. unfold class_called. cbn [class_in class_names]. repeat match goal with |- context [if ?b then _ else _] => destruct b end; discriminate.
  - intros (g & k & H). eapply ic_defined; [exact H|]. left. reflexivity.
Qed.
Lemma no_mid : mid_numeric table = [].
Proof.
  unfold mid_numeric. replace (flat_map _ table) with (@nil char); [|symmetry]; [cbn [app]|]; match goal with |- ?z = [] => destruct z as [|c l0] eqn:E; [reflexivity|] end;
    exfalso; match type of E with ?f = _ => assert (I : In c f) by (rewrite E; left; reflexivity) end; apply in_flat_map in I; destruct I as (r & Hr & I); apply PL in Hr; destruct r; try discriminate Hr; destruct I.
Qed.
Lemma no_extra : extra_numeric table = [].
Proof.
  unfold extra_numeric. destruct (last_some table _) as [l|] eqn:E; [|reflexivity]. apply last_some_In in E. destruct E as (r & Hr & E). apply PL in Hr. destruct r; discriminate.
Qed.
Lemma plain_marks b w : numeric_marks (mk_numeric_chars (digits x) [] []) b w = map (fun c => mem c (digits x)) w.
Proof.
  revert b. induction w as [|c w IH]; intros b; [reflexivity|]. cbn [numeric_marks nu_digits nu_extra nu_mid map]. change (mem c []) with false. rewrite !andb_false_r. cbn [andb]. rewrite !IH.
  destruct (mem c (digits x)); reflexivity.
Qed.
Notation kc := (build_constrainers is_alphabetic read_dictionary Forward x table).
Definition no_computer (spans : list span) : Prop := forall s, In s spans -> sp_class s <> computer_braille.
Lemma limits_plain w spans lim : no_computer spans -> limits_of kc w spans = Ok lim -> forall q,
  flag_at k_comp6 lim q = false /\ (forall c, nth_error w q = Some c -> (flag_at k_dont_contract lim q = true <-> a_litdigit table c)).
Proof.
  intros NC. unfold limits_of. cbn [build_constrainers kc_numeric kc_caps kc_number kc_hyphen kc_punct]. unfold build_caps, build_number, backward_dots. cbn [is_backward optional bind fst snd].
  destruct (optional _ (fun u => hyphen_marks (fst u) (snd u) w) []) as [b| |]; try discriminate. cbn [bind]. intros [= <-] q.
  assert (CM : comp_mark spans (length w) q = false).
  { unfold comp_mark. destruct (existsb _ spans) eqn:E; [|reflexivity]. apply existsb_exists in E. destruct E as (s & Hs & E). apply andb_prop in E. destruct E as [E _]. apply andb_prop in E. destruct E as [E _].
    apply str_eqb_eq in E. destruct (NC s Hs E). }
  destruct (Nat.lt_ge_cases q (length w)) as [L|L].
  - rewrite !flag_map by exact L. cbn [k_comp6 k_dont_contract]. split; [exact CM|]. intros c Hc. rewrite <- litdigits. unfold build_numeric.
    destruct (is_empty (digits x)) eqn:EE.
    + destruct (digits x); [|discriminate EE]. destruct q; cbn; split; discriminate.
    + rewrite no_mid, no_extra, plain_marks. rewrite (nth_error_nth (map (fun c => mem c (digits x)) w) q (x := mem c (digits x))); [tauto|]. rewrite nth_error_map. unfold str, char in *. rewrite Hc. reflexivity.
  - split.
    + unfold flag_at. rewrite nth_error_map. rewrite (proj2 (nth_error_None (List.seq 0 (length w)) q)); [reflexivity|]. rewrite seq_length. exact L.
    + intros c Hc. apply nth_error_None in L. unfold str, char in *. congruence.
Qed.
(** ** Characters *)
Lemma undefined_last : match undefined_dots table with
  | Some g => the_last table (fun r => exists g, r = RUndefined g) (RUndefined g)
  | None => forall g, ~ In (RUndefined g) table
  end.
Proof.
  unfold undefined_dots. clear. induction table as [|r l IH] using rev_ind; [intros g []|]. rewrite fold_left_app. cbn [fold_left].
  match type of IH with match ?o with _ => _ end => set (u := o) in *; clearbody u end.
  assert (G : (forall g, r <> RUndefined g) -> match u with
    | Some g => the_last (l ++ [r]) (fun r => exists g, r = RUndefined g) (RUndefined g)
    | None => forall g, ~ In (RUndefined g) (l ++ [r]) end).
  { intros NU. destruct u as [g|].
    - destruct IH as (l1 & l2 & -> & _ & N). exists l1, (l2 ++ [r]). rewrite <- app_assoc. split; [reflexivity|]. split; [eauto|].
      intros s Hs. apply in_app_iff in Hs. destruct Hs as [Hs|[<-|[]]]; [apply N, Hs|intros (g' & E); exact (NU g' E)].
    - intros g Hg. apply in_app_iff in Hg. destruct Hg as [Hg|[Hg|[]]]; [exact (IH g Hg)|exact (NU g Hg)]. }
  destruct r; try (apply G; discriminate). clear G.
  exists l, []. split; [reflexivity|]. split; [eauto|intros s []].
Qed.
Lemma fallback_alone c t : (c < 16 ^ 6)%N -> fallback_piece p c = Ok t -> alone compat x table c (r_output t).
Proof.
  intros LT E. destruct (mb_rules _ _ _ _ _ _ _ B) as (p0 & E0 & _ & _ & _ & E1 & _ & _ & _ & E5 & _ & E7). destruct (compile_spec _ _ _ _ _ _ E0) as (_ & _ & _ & I4 & _ & _ & _ & I8 & _ & I10).
  unfold fallback_piece in E. rewrite E1, I4 in E. destruct (character_lookup Forward x table compat c) as [u|] eqn:EL.
  - injection E as <-. destruct (lookup_definition x table compat c u EL) as (r & D & O & _). left. exists r. split; [exact D|]. eapply piece_written; eauto.
  - right. split; [exact (lookup_none x table compat c EL)|]. rewrite E5, I8 in E. pose proof undefined_last as U. destruct (undefined_dots table) as [g|].
    + injection E as <-. left. exists g. auto.
    + right. split; [exact U|]. destruct (escape_numeral c LT) as (s & Es & N). exists s. split; [exact N|].
      rewrite E7, I10 in E. destruct (handle_undefined (x_defs x) c) as [h| |] eqn:EH; try discriminate E. injection E as <-. cbn [r_output resolved_new].
      unfold handle_undefined in EH. rewrite Es in EH. apply spell_spelled. exact EH.
Qed.
Lemma alone_unique c s s' : alone compat x table c s -> alone compat x table c s' -> s = s'.
Proof.
  intros [(r & D & W)|(N & H)] [(r' & D' & W')|(N' & H')].
  - pose proof (C73_one_definition x table compat c r r' D D') as <-. eapply (written_unique x); [exact lower|exact upper|exact W|exact W'].
  - exfalso. apply N'. exact (definition_defined is_alphabetic compat read_dictionary x table m B EX c _ D).
  - exfalso. apply N. exact (definition_defined is_alphabetic compat read_dictionary x table m B EX c _ D').
  - destruct H as [(g & L & ->)|(U & ds & ND & SP)], H' as [(g' & L' & ->)|(U' & ds' & ND' & SP')].
    + pose proof (the_last_unique _ _ _ _ L L') as E. congruence.
    + exfalso. destruct L as (l1 & l2 & E & _). apply (U' g). rewrite E. apply in_elt.
    + exfalso. destruct L' as (l1 & l2 & E & _). apply (U g'). rewrite E. apply in_elt.
    + rewrite (numeral_unique _ _ ND _ ND') in SP. eapply spelled_unique; eauto.
Qed.
Lemma longest_unique u text dots text' dots' : longest lower x table u text dots -> longest lower x table u text' dots' -> text = text' /\ dots = dots'.
Proof.
  intros (F & M & g & k & L & S1) (F' & M' & g' & k' & L' & S2).
  assert (text = text') as <-.
  { apply (begins_same lower u); [apply F|apply F'|]. pose proof (M _ F'). pose proof (M' _ F). lia. }
  split; [reflexivity|]. pose proof (the_last_unique _ _ _ _ L L') as E. injection E as -> _. eapply means_unique; eauto.
Qed.
Lemma reads_unique u o : reads lower compat x table u o -> forall o', reads lower compat x table u o' -> o = o'.
Proof.
  assert (NE : forall text dots, ~ longest lower x table [] text dots).
  { intros text dots ((T & _ & BG & _) & _). apply begins_length in BG. destruct text; [congruence|cbn in BG; lia]. }
  induction 1 as [|u text dots out L R IH|c u s out NF A R IH]; intros o' R'; inversion R' as [|u' text' dots' out' L' R2|c' u' s' out' NF' A' R2]; subst; try reflexivity; try (exfalso; eapply NE; eassumption).
  - destruct (longest_unique _ _ _ _ _ L L') as [<- <-]. f_equal. apply IH, R2.
  - exfalso. destruct L as (F & _). exact (NF' _ F).
  - exfalso. destruct L' as (F & _). exact (NF _ F).
  - f_equal; [eapply alone_unique; eauto|apply IH, R2].
Qed.
(** ** The walk *)
Section Walking.
Variable w : str.
Variable spans : list span.
Variable lim : pos_flags.
Hypothesis NC : no_computer spans.
Hypothesis EL : limits_of kc w spans = Ok lim.
Hypothesis UC : forall c, In c w -> (c < 16 ^ 6)%N.
Notation opts := (options lower p lim).
Lemma options_fit pos prev rest t : rest = skipn pos w -> In t (opts pos prev rest) ->
  exists text dots, last_rule text dots /\ fits_here lower table rest text /\ a_piece t text dots.
Proof.
  intros ER H. destruct (limits_plain w spans lim NC EL pos) as [C6 DC]. unfold options in H. rewrite C6 in H. apply filter_In in H. destruct H as [H Q].
  destruct (found_rule rest prev t H) as (text & dots & LR & TN & BG & AP). exists text, dots. split; [exact LR|]. split; [|exact AP].
  split; [exact TN|]. split. { destruct LR as (g & k & (l1 & l2 & E & _) & _). exists g, k. rewrite E. apply in_elt. }
  split; [exact BG|]. intros L c Hc A. apply andb_prop in Q. destruct Q as [_ Q]. destruct AP as (AL & _). rewrite AL in Q.
  assert (Hn : nth_error w pos = Some c). { rewrite <- (firstn_skipn pos w) at 1. rewrite <- ER. rewrite nth_error_app2; rewrite firstn_length. 2:lia. destruct (Nat.lt_ge_cases pos (length w)). { rewrite Nat.min_l by lia. rewrite Nat.sub_diag. destruct rest; exact Hc. } rewrite skipn_all2 in ER by assumption. subst rest. discriminate Hc. }
  apply (DC c Hn) in A. rewrite A in Q. cbn [negb orb] in Q. apply Nat.leb_le in Q. lia.
Qed.
Lemma fit_options pos prev rest text : rest = skipn pos w -> fits_here lower table rest text -> exists t dots, In t (opts pos prev rest) /\ a_piece t text dots.
Proof.
  intros ER (TN & (g & k & H) & BG & ND). destruct (rule_found rest prev text g k H BG) as (t & dots & I & AP). exists t, dots. split; [|exact AP].
  destruct (limits_plain w spans lim NC EL pos) as [C6 DC]. unfold options. rewrite C6. apply filter_In. split; [exact I|].
  destruct AP as (AL & _ & _ & (g' & k' & O)). unfold punc_ok. rewrite O, AL. cbn [andb]. destruct (flag_at k_dont_contract lim pos) eqn:D; [|reflexivity]. cbn [negb orb].
  apply Nat.leb_le. destruct (Nat.le_gt_cases (length text) 1) as [L|L]; [exact L|]. exfalso.
  destruct rest as [|c r]; [apply begins_length in BG; cbn in BG; lia|]. apply (ND L c eq_refl). refine (proj1 (DC c _) eq_refl).
  rewrite <- (firstn_skipn pos w), <- ER. rewrite nth_error_app2; rewrite firstn_length; [|lia]. destruct (Nat.lt_ge_cases pos (length w)); [rewrite Nat.min_l, Nat.sub_diag by lia; reflexivity|]. rewrite skipn_all2 in ER by assumption. discriminate ER.
Qed.
Lemma pick_reads pos prev rest t : rest = skipn pos w -> pick lower p lim pos prev rest = Some (Ok t) ->
  (exists text, longest lower x table rest text (r_output t) /\ r_length t = length text) \/
  (exists c r, rest = c :: r /\ (forall text, ~ fits_here lower table rest text) /\ alone compat x table c (r_output t) /\ r_length t = 1).
Proof.
  intros ER E. unfold pick in E. assert (NX : nocross_candidates lower p lim rest prev pos = []).
  { unfold nocross_candidates. destruct (tries_even is_alphabetic compat read_dictionary x table lower m B EX plain_blind) as (_ & B2 & _). rewrite B2. reflexivity. }
  rewrite NX in E. cbn [max_weight fold_left] in E. change (max_weight []) with (@None resolved) in E. cbn iota in E.
  pose proof (max_weight_spec (opts pos prev rest)) as M. destruct (max_weight (opts pos prev rest)) as [t'|].
  - injection E as ->. destruct M as [I M]. destruct (options_fit pos prev rest t ER I) as (text & dots & LR & F & AP). left. exists text.
    destruct AP as (A1 & A2 & A3 & _). rewrite A3. split; [|exact A1]. split; [exact F|]. split; [|exact LR].
    intros text' F'. destruct (fit_options pos prev rest text' ER F') as (t' & dots' & I' & (_ & W' & _)). specialize (M t' I'). lia.
  - destruct rest as [|c r]; [discriminate E|]. injection E as E. right. exists c, r. split; [reflexivity|]. split.
    + intros text F. destruct (fit_options pos prev (c :: r) text ER F) as (t' & dots' & I' & _). rewrite M in I'. destruct I'.
    + split; [apply fallback_alone; [|exact E]|].
      * apply UC. rewrite <- (firstn_skipn pos w). apply in_app_iff. right. rewrite <- ER. left. reflexivity.
      * pose proof (compiled_ok compat read_dictionary Forward x table lower _ (mb_rules _ _ _ _ _ _ _ B)) as OK. apply (fallback_shape lower p OK c t E).
Qed.
Variable ind : list (list resolved).
Hypothesis IND : forall q, nth q ind [] = [].
Lemma walk_reads pos prev rest out : walk lower p lim ind pos prev rest out -> rest = skipn pos w -> reads lower compat x table rest (outputs out).
Proof.
  induction 1 as [pos prev rest P|pos prev rest t out P W IH]; intros ER; rewrite IND; cbn [app].
  - unfold pick in P. destruct (max_weight (nocross_candidates lower p lim rest prev pos)), (max_weight (opts pos prev rest)), rest; try discriminate P. constructor.
  - unfold outputs. cbn [flat_map]. fold (outputs out). specialize (IH ltac:(rewrite ER, skipn_skipn'; f_equal; lia)).
    destruct (pick_reads pos prev rest t ER P) as [(text & L & E)|(c & r & -> & NF & A & E)]; rewrite E in IH.
    + eapply ReadsRule; [exact L|exact IH].
    + apply ReadsAlone; assumption.
Qed.
End Walking.
Notation trace := (main_trace lower upper sort m).
Lemma trace_reads w spans out : no_computer spans -> (forall c, In c w -> (c < 16 ^ 6)%N) -> trace w spans = Ok out -> reads lower compat x table w (outputs out).
Proof.
  intros NC UC E. unfold main_trace, enriched in E. rewrite (scanner_none is_alphabetic compat read_dictionary x table m B plain_blind) in E. cbn [bind] in E. rewrite (mb_constrainers _ _ _ _ _ _ _ B) in E.
  destruct (indications_of lower sort (mt_indicators m) w spans) as [i| |] eqn:Ei; try discriminate E. cbn [bind] in E.
  destruct (limits_of kc w spans) as [l| |] eqn:El; try discriminate E. cbn [bind] in E.
  destruct (tries_even is_alphabetic compat read_dictionary x table lower m B EX plain_blind) as (_ & _ & _ & NM & NCx & FW). pose proof (compiled_ok compat read_dictionary Forward x table lower _ (mb_rules _ _ _ _ _ _ _ B)) as OK.
  apply (run_walk lower upper p OK NM NCx FW) in E. eapply walk_reads; [exact NC|exact El|exact UC| |exact E|reflexivity].
  intros q. destruct (nth q i []) as [|t l0] eqn:En; [reflexivity|]. exfalso.
  destruct (all_signs is_alphabetic compat read_dictionary x table lower sort m B SORT w spans i Ei q t) as (r & dots & Hr & S & _); [rewrite En; left; reflexivity|].
  rewrite (no_sign r Hr) in S. discriminate S.
Qed.
Lemma trace_returns w spans : exists out, trace w spans = Ok out.
Proof.
  apply (pass_total is_alphabetic compat read_dictionary Forward x table lower upper sort m B DR).
  - intros k q E. rewrite (scanner_none is_alphabetic compat read_dictionary x table m B plain_blind) in E. discriminate E.
  - intros sp _. left. destruct (mb_indicators _ _ _ _ _ _ _ B) as (o1 & o2 & i0 & _ & _ & E & _ & E2 & _).
    assert (EM : in_emph (mt_indicators m) = []).
    { rewrite E2. unfold build_indicators in E. destruct (build_letter_ind _ _ _ _); try discriminate E. cbn [tbind] in E. destruct (build_nocont_ind _ _ _); try discriminate E. cbn [tbind] in E.
      injection E as <-. cbn [in_emph]. unfold build_emph. replace (emph_names table) with (@nil str); [reflexivity|]. unfold emph_names.
      revert PL. clear. generalize (@nil str). induction table as [|r l IH]; intros a PL; [reflexivity|]. cbn [fold_left].
      pose proof (PL r (or_introl eq_refl)) as Pr. replace (emph_name r) with (@None str) by (destruct r; try discriminate Pr; reflexivity). apply IH. intros q Hq. apply PL. right. exact Hq. }
    rewrite EM. cbn. lia.
Qed.
End Table.
