(** Tables of single characters and plain contractions: the main pass backward. *)
From Coq Require Import Permutation.
From Verif Require Import Base BaseProofs RuleModel ClassSpec TranslationModel TranslationProofs TableModel TableProofs RegexpModel
  RegexpSpec PatternModel MatchProofs WordSpec TrieModel TrieProofs PropTrie
  HyphenationModel HyphenationProofs LoopModel LoopProofs MultipassProofs PrimaryProofs PrimaryTrace CompileModel CompileSpec
  CompileProofs MainTable ConstraintModel ConstraintSpec ConstraintProofs IndicatorModel IndicatorProofs
  CapsSpec CapsProofs CapsFacts EmphSpec EmphProofs MainSpec StepProofs TraceSpec MainPass SignProofs FrameSpec DefinitionSpec PropDefinitions
  UndefinedSpec PropUndefined WordProofs SaysSpec PropRivals LocalSpec LocalProofs LocalPass CaseSpec CaseProofs LongestSpec LongestProofs LongestBackSpec.

(** without marks for numbers and capitals the direction makes no difference to the loop *)
Section Turn.
Variable lower upper : char -> list char.
Variable p : ptable.
Variable lim : pos_flags.
Variable ind : list (list resolved).
Variable input : str.
Hypothesis ND : forall q, flag_at k_digit lim q = false.
Hypothesis NU : forall q, flag_at k_uppercase lim q = false.
Hypothesis NT : forall q, flag_at k_titlecase lim q = false.
Definition turned : ptable :=
  mk_ptable (p_undefined p) (p_fallback p) (p_chars p) (p_trie p) (p_comp6 p) (p_nocross p) (p_match p) (p_context p) Forward (p_digits p).
Lemma step_turned s : primary_step lower upper p ind lim input s = primary_step lower upper turned ind lim input s.
Proof.
  unfold primary_step, primary_candidates, prefer_digit, adjust_case, nocross_candidates, fallback_piece. cbn [turned p_undefined p_fallback p_chars p_trie p_comp6 p_nocross p_match p_context p_dir p_digits].
  rewrite ND, NU, NT. destruct (p_dir p); reflexivity.
Qed.
Lemma run_turned : primary_run lower upper p ind lim input = primary_run lower upper turned ind lim input.
Proof.
  unfold primary_run, primary_fuel. cbn [turned p_match p_context]. generalize (primary_init input). generalize (S (S (length input) * S ((length (p_match p) + length (p_context p)) * S (length input)))).
  intros n. induction n as [|n IH]; intros s; [reflexivity|]. cbn [primary_loop]. rewrite step_turned. destruct (primary_step lower upper turned ind lim input s) as [[s'|o]| |]; cbn [bind]; auto.
Qed.
Lemma ok_turned : table_ok lower p -> table_ok lower turned.
Proof. intros [H1 H2 H3 H4 H5 H6 H7]. constructor; assumption. Qed.
Lemma run_walk_turned out : table_ok lower p -> p_match p = [] -> p_context p = [] -> primary_run lower upper p ind lim input = Ok out -> walk lower p lim ind 0 None input out.
Proof.
  intros OK NM NC E. rewrite run_turned in E. apply (run_walk lower upper turned (ok_turned OK) NM NC eq_refl) in E.
  induction E; [apply WalkEnd|apply WalkStep]; assumption.
Qed.
End Turn.

Lemma next_char (w : str) : forall pos c r, c :: r = skipn pos w -> nth_error w pos = Some c.
Proof. induction w as [|y l IH]; intros [|pos] c r E; cbn in *; try discriminate E; [congruence|]. exact (IH pos c r E). Qed.

Section Table.
Variable is_alphabetic : char -> bool.
Variable compat : bool.
Variable read_dictionary : str -> tres hyph.
Variable x : context.
Variable table : list rule.
Variable lower upper : char -> list char.
Variable sort : list event -> res (list event).
Variable m : main_table.
Hypothesis B : main_built is_alphabetic compat read_dictionary Backward x table m.
Hypothesis DR : dictionaries_read read_dictionary.
Hypothesis EX : context_compile is_alphabetic compat table = TOk x.
Hypothesis PL : forall r, In r table -> plain r = true.
Hypothesis SORT : sort_rearranges sort.
Notation p := (mt_rules m).
Notation ctx := (trie_ctx Backward x).
(** ** The entries *)
Definition an_entry (r : rule) (text dots : str) : ins_args := mk_ins text dots None None (rule_precedence r) [] Main (Some r).
Definition early_entry (r : rule) : list ins_args := character_entries first_characters r.
Definition late_entry (r : rule) : list ins_args := main_entries_of Backward x table r.
Lemma the_entries_back : main_entries Backward x table = flat_map early_entry table ++ flat_map late_entry table.
Proof. reflexivity. Qed.
Lemma hyphen_dec r : {exists c g k, r = RHyphen c g k} + {~ exists c g k, r = RHyphen c g k}.
Proof. destruct r; try (right; intros (c' & g' & k' & [=]); fail). left. eauto. Qed.
Lemma early_spec r : In r table -> forall a, In a (early_entry r) <-> a_hyphen r /\ exists text dots, says x r text dots /\ a = an_entry r text dots.
Proof.
  intros Hr a. apply PL in Hr. split.
  - intros H. destruct r; try discriminate Hr; try (destruct H; fail). destruct H as [<-|[]]. split; [unfold a_hyphen; eauto|]. eexists _, _. split; [split; reflexivity|reflexivity].
  - intros ((c & g & k & ->) & text & dots & (-> & ->) & ->). left. reflexivity.
Qed.
Lemma late_spec r : In r table -> forall a, In a (late_entry r) <-> ~ a_hyphen r /\ exists text dots, says x r text dots /\ a = an_entry r text dots.
Proof.
  intros Hr a. apply PL in Hr. unfold late_entry, main_entries_of. cbn [backward_only is_backward]. split.
  - intros H. destruct r; try discriminate Hr; cbn [character_entries other_characters indicator_entries is_nocross word_entries word_insertions map app] in H; try (destruct H; fail);
      (split; [intros (c' & g' & k' & [=])|]); try (destruct H as [<-|[]]; eexists _, _; split; [split; reflexivity|reflexivity]).
    + destruct (defs_get (x_defs x) base) as [s|] eqn:D; [|destruct H]. destruct H as [<-|[]]. exists [derived], s. split; [split; [reflexivity|exact D]|reflexivity].
    + cbn [plain] in Hr. destruct w; [|discriminate Hr]. destruct (nocross k); [discriminate Hr|]. unfold word_entries in H. cbn [word_insertions] in H.
      destruct (dots_of x dots chars) as [s| |] eqn:D; try (destruct H; fail). destruct H as [<-|[]]. exists chars, s. split; [split; [reflexivity|apply dots_means; exact D]|reflexivity].
  - intros (NH & text & dots & SY & ->). destruct r; try discriminate Hr; cbn [says sign_dots] in SY; try (destruct SY; fail); try (exfalso; apply NH; unfold a_hyphen; eauto; fail);
      destruct SY as [-> SY]; subst; try (left; reflexivity).
    + cbn [character_entries other_characters]. unfold character_entries. cbn [other_characters]. rewrite SY. left. reflexivity.
    + cbn [plain] in Hr. destruct w; [|discriminate Hr]. cbn [character_entries other_characters map app indicator_entries is_nocross]. destruct (nocross k); [discriminate Hr|].
      apply means_dots in SY. unfold word_entries. cbn [word_insertions]. rewrite SY. left. reflexivity.
Qed.
Lemma early_one r : In r table -> length (early_entry r) <= 1.
Proof. intros H. apply PL in H. destruct r; try discriminate H; cbn; lia. Qed.
Lemma late_one r : In r table -> length (late_entry r) <= 1.
Proof.
  intros H. apply PL in H. unfold late_entry, main_entries_of. cbn [backward_only is_backward]. destruct r; try discriminate H; try (cbn; lia).
  - unfold character_entries. cbn [other_characters]. destruct (defs_get (x_defs x) base); cbn; lia.
  - cbn [plain] in H. destruct w; [|discriminate H]. cbn [character_entries other_characters map app indicator_entries is_nocross]. destruct (nocross k); [cbn; lia|].
    unfold word_entries. cbn [word_insertions]. destruct (dots_of x dots chars); cbn; lia.
Qed.
Lemma entry_rivals r text dots r' text' dots' : rivals ctx Backward (an_entry r text dots) (an_entry r' text' dots') <-> dots = dots'.
Proof. unfold rivals. cbn [sought an_entry i_to]. split; [intros (H & _); exact H|intros ->; split; [reflexivity|split; constructor]]. Qed.
Lemma entry_strong r text dots : In r table -> (strong (an_entry r text dots) <-> an_always r).
Proof.
  intros H. apply PL in H. unfold strong, an_always. cbn [an_entry i_prec].
  destruct r; try discriminate H; cbn [rule_precedence]; split; try (intros N; destruct (N eq_refl)); try (intros (t' & g' & k' & w' & [=]); fail); [intros _; eauto|intros _; discriminate].
Qed.
(** the entries of some of the rules *)
Lemma early_in l r dots : incl l table -> In r l -> a_hyphen r -> has_dots x dots r -> exists text, In (an_entry r text dots) (flat_map early_entry l).
Proof. intros I Hr HH (text & SY). exists text. apply in_flat_map. exists r. split; [exact Hr|]. apply early_spec; [apply I, Hr|]. eauto. Qed.
Lemma late_in l r dots : incl l table -> In r l -> ~ a_hyphen r -> has_dots x dots r -> exists text, In (an_entry r text dots) (flat_map late_entry l).
Proof. intros I Hr HH (text & SY). exists text. apply in_flat_map. exists r. split; [exact Hr|]. apply late_spec; [apply I, Hr|]. eauto. Qed.
Lemma always_late r : an_always r -> ~ a_hyphen r.
Proof. intros (t & g & k & w & ->) (c & g' & k' & [=]). Qed.
Lemma force_reading full a : in_force compat ctx Backward (main_entries Backward x table) full a ->
  exists r, In r table /\ the_reading compat x table (i_to a) r /\ says x r (i_from a) (i_to a) /\ a = an_entry r (i_from a) (i_to a).
Proof.
  intros (l1 & l2 & E & C & _). rewrite the_entries_back in E.
  assert (SP : (exists l2', flat_map early_entry table = l1 ++ a :: l2' /\ l2 = l2' ++ flat_map late_entry table) \/
               (exists l1', l1 = flat_map early_entry table ++ l1' /\ flat_map late_entry table = l1' ++ a :: l2)).
  { apply app_eq_app in E. destruct E as (l & [[E1 E2]|[E1 E2]]).
    - destruct l as [|b l]; cbn [app] in E2.
      + right. exists []. rewrite app_nil_r in *. cbn [app]. auto.
      + injection E2 as <- ->. left. exists l. auto.
    - right. exists l. auto. }
  destruct SP as [(l2' & E1 & E2)|(l1' & E1 & E2)].
  - destruct (flat_split early_entry table early_one _ _ _ E1) as (t1 & r & t2 & Et & Er & F1 & F2).
    assert (Hr : In r table) by (rewrite Et; apply in_elt).
    assert (I2 : incl t2 table) by (rewrite Et; intros z Hz; apply in_app_iff; right; right; exact Hz).
    assert (I1 : incl t1 table) by (rewrite Et; intros z Hz; apply in_app_iff; left; exact Hz).
    assert (Ha : In a (early_entry r)) by (rewrite Er; left; reflexivity). apply (early_spec r Hr) in Ha. destruct Ha as (HH & text & dots & SY & ->).
    exists r. split; [exact Hr|]. cbn [an_entry i_to i_from]. split; [|split; [exact SY|reflexivity]].
    assert (HD : has_dots x dots r) by (exists text; exact SY). unfold the_reading. destruct compat.
    + destruct C as [C1 [C2|C2]]; [|exfalso; apply (entry_strong r text dots Hr) in C2; exact (always_late r C2 HH)]. right. split.
      * intros s Hs (AL & HDs). destruct (late_in table s dots (incl_refl _) Hs (always_late s AL) HDs) as (t' & J).
        apply (C1 (an_entry s t' dots)); [rewrite E2; apply in_app_iff; right; exact J|apply entry_rivals; reflexivity|apply entry_strong; assumption].
      * left. exists t1, t2. split; [exact Et|]. split; [auto|]. intros s Hs (HHs & HDs). destruct (early_in t1 s dots I1 Hs HHs HDs) as (t' & J). rewrite F1 in J.
        apply (C2 _ J), entry_rivals. reflexivity.
    + right. split.
      * intros s Hs (NH & HDs). destruct (late_in table s dots (incl_refl _) Hs NH HDs) as (t' & J). apply (C (an_entry s t' dots)); [rewrite E2; apply in_app_iff; right; exact J|apply entry_rivals; reflexivity].
      * exists t1, t2. split; [exact Et|]. split; [exact HD|]. intros s Hs HDs. destruct (hyphen_dec s) as [HHs|NH].
        -- destruct (early_in t2 s dots I2 Hs HHs HDs) as (t' & J). rewrite F2 in J. apply (C (an_entry s t' dots)); [rewrite E2; apply in_app_iff; left; exact J|apply entry_rivals; reflexivity].
        -- destruct (late_in table s dots (incl_refl _) (I2 s Hs) NH HDs) as (t' & J). apply (C (an_entry s t' dots)); [rewrite E2; apply in_app_iff; right; exact J|apply entry_rivals; reflexivity].
  - destruct (flat_split late_entry table late_one _ _ _ E2) as (t1 & r & t2 & Et & Er & F1 & F2).
    assert (Hr : In r table) by (rewrite Et; apply in_elt).
    assert (I2 : incl t2 table) by (rewrite Et; intros z Hz; apply in_app_iff; right; right; exact Hz).
    assert (I1 : incl t1 table) by (rewrite Et; intros z Hz; apply in_app_iff; left; exact Hz).
    assert (Ha : In a (late_entry r)) by (rewrite Er; left; reflexivity). apply (late_spec r Hr) in Ha. destruct Ha as (NH & text & dots & SY & ->).
    exists r. split; [exact Hr|]. cbn [an_entry i_to i_from]. split; [|split; [exact SY|reflexivity]].
    assert (HD : has_dots x dots r) by (exists text; exact SY). unfold the_reading. destruct compat.
    + destruct C as [C1 C2].
      assert (L2 : forall s, In s t2 -> ~ (an_always s /\ has_dots x dots s)).
      { intros s Hs (AL & HDs). destruct (late_in t2 s dots I2 Hs (always_late s AL) HDs) as (t' & J). rewrite F2 in J.
        apply (C1 _ J); [apply entry_rivals; reflexivity|apply entry_strong; [apply I2, Hs|exact AL]]. }
      destruct C2 as [C2|C2].
      * assert (NE : forall s, In s table -> ~ (a_hyphen s /\ has_dots x dots s)).
        { intros s Hs (HHs & HDs). destruct (early_in table s dots (incl_refl _) Hs HHs HDs) as (t' & J). apply (C2 (an_entry s t' dots)); [rewrite E1; apply in_app_iff; left; exact J|apply entry_rivals; reflexivity]. }
        assert (N1 : forall s, In s t1 -> ~ has_dots x dots s).
        { intros s Hs HDs. destruct (hyphen_dec s) as [HHs|NHs]; [exact (NE s (I1 s Hs) (conj HHs HDs))|].
          destruct (late_in t1 s dots I1 Hs NHs HDs) as (t' & J). rewrite F1 in J. apply (C2 (an_entry s t' dots)); [rewrite E1; apply in_app_iff; right; exact J|apply entry_rivals; reflexivity]. }
        assert (AD : an_always r \/ ~ an_always r) by (destruct r; try (right; intros (t' & g' & k' & w' & [=]); fail); left; unfold an_always; eauto).
        destruct AD as [AL|NA]; [left; exists t1, t2; auto|]. right. split.
        -- intros s Hs (ALs & HDs). rewrite Et in Hs. apply in_app_iff in Hs. destruct Hs as [Hs|[<-|Hs]]; [exact (N1 s Hs HDs)|exact (NA ALs)|exact (L2 s Hs (conj ALs HDs))].
        -- right. split; [exact NE|]. exists t1, t2. auto.
      * apply (entry_strong r text dots Hr) in C2. left. exists t1, t2. auto.
    + left. exists t1, t2. split; [exact Et|]. split; [auto|]. intros s Hs (NHs & HDs). destruct (late_in t2 s dots I2 Hs NHs HDs) as (t' & J). rewrite F2 in J.
      apply (C _ J), entry_rivals. reflexivity.
Qed.
Lemma rule_force r dots : In r table -> has_dots x dots r -> exists full a, in_force compat ctx Backward (main_entries Backward x table) full a /\ i_to a = dots.
Proof.
  intros Hr HD. assert (J : exists text, In (an_entry r text dots) (main_entries Backward x table)).
  { rewrite the_entries_back. destruct (hyphen_dec r) as [HH|NH]; [destruct (early_in table r dots (incl_refl _) Hr HH HD) as (t & J)|destruct (late_in table r dots (incl_refl _) Hr NH HD) as (t & J)];
      exists t; apply in_app_iff; auto. }
  destruct J as (text & J). destruct (some_in_force compat ctx Backward (main_entries Backward x table) (an_entry r text dots)) as (full & b & F & _ & RV & _); [|exact J|].
  - intros b Hb. apply main_oriented in Hb. apply Hb.
  - exists full, b. split; [exact F|]. symmetry. exact RV.
Qed.
Notation find := (find_translations lower (p_trie p)).
Definition a_piece_back (t : resolved) (dots text : str) : Prop :=
  r_length t = length dots /\ r_weight t = length dots /\ r_output t = text /\ exists r, r_origin t = Some r /\ In r table.
Lemma offer_piece full r text dots : In r table -> a_piece_back (offer ctx Backward full (an_entry r text dots)) dots text.
Proof.
  intros Hr. split; [reflexivity|]. split; [|split; [reflexivity|exists r; split; [reflexivity|exact Hr]]]. cbn. destruct full; [|reflexivity]. rewrite app_nil_r, map_length. reflexivity.
Qed.
Lemma found_back rest prev t : In t (find rest prev) -> exists dots text r, In r table /\ the_reading compat x table dots r /\ says x r text dots /\ dots <> [] /\ begins lower rest dots /\ a_piece_back t dots text.
Proof.
  intros H. pose proof (compiled_ok compat read_dictionary Backward x table lower _ (mb_rules _ _ _ _ _ _ _ B)) as OK.
  pose proof (ok_trie _ _ OK rest prev t H) as (_ & L & _).
  apply (lookup_main compat read_dictionary Backward x table lower p (mb_rules _ _ _ _ _ _ _ B)) in H. destruct H as (full & a & F & (q & TM & _) & ->).
  apply force_reading in F. destruct F as (r & Hr & RD & SY & Ea). exists (i_to a), (i_from a), r. pose proof (offer_piece full r (i_from a) (i_to a) Hr) as AP. rewrite <- Ea in AP. split; [exact Hr|]. split; [exact RD|]. split; [exact SY|].
  split; [intros Z; destruct AP as (A1 & _); rewrite A1, Z in L; cbn in L; lia|]. split; [apply text_begins; exists q; exact TM|exact AP].
Qed.
Lemma back_found rest prev r dots : In r table -> has_dots x dots r -> begins lower rest dots -> exists t text, In t (find rest prev) /\ a_piece_back t dots text.
Proof.
  intros Hr HD BG. destruct (rule_force r dots Hr HD) as (full & a & F & E). pose proof F as F'. apply force_reading in F'. destruct F' as (r' & Hr' & _ & _ & Ea).
  exists (offer ctx Backward full a), (i_from a). split.
  - apply (lookup_main compat read_dictionary Backward x table lower p (mb_rules _ _ _ _ _ _ _ B)). exists full, a.
    split; [exact F|]. split; [|reflexivity]. apply text_begins in BG. destruct BG as (q & TM). exists q. cbn [sought]. rewrite E. split; [exact TM|]. rewrite Ea. split; intros ks [].
  - pose proof (offer_piece full r' (i_from a) (i_to a) Hr') as AP. rewrite <- Ea, E in AP. exact AP.
Qed.
Lemma not_nocross r : In r table -> is_nocross r = false.
Proof. intros H. apply PL in H. destruct r; try discriminate H; try reflexivity. cbn [plain] in H. destruct w; [|discriminate H]. cbn [is_nocross]. destruct (nocross k); [discriminate H|reflexivity]. Qed.
Lemma nothing_else : (forall rest prev, find_translations lower (p_nocross p) rest prev = []) /\ p_match p = [] /\ p_context p = [].
Proof.
  pose proof (mb_rules _ _ _ _ _ _ _ B) as CO. destruct CO as (p0 & E & _ & _ & _ & _ & E2 & E3 & _). destruct (compile_spec _ _ _ _ _ _ E) as (_ & _ & _ & _ & I5 & I6 & _). split; [|split].
  - intros rest prev. destruct (find_translations lower (p_nocross p) rest prev) as [|t l] eqn:EF; [reflexivity|]. exfalso.
    assert (I : In t (find_translations lower (p_nocross p) rest prev)) by (rewrite EF; left; reflexivity).
    apply (lookup_nocross compat read_dictionary Backward x table lower p (mb_rules _ _ _ _ _ _ _ B)) in I. destruct I as (full & a & IF & _).
    apply in_force_in in IF. apply nocross_oriented in IF. destruct IF as (_ & r & Hr & _ & NR). apply not_nocross in Hr. congruence.
  - rewrite E2, I5. destruct (flat_map (match_entries x) table) as [|c l] eqn:EE; [reflexivity|]. exfalso.
    assert (I : In c (flat_map (match_entries x) table)) by (rewrite EE; left; reflexivity). apply in_flat_map in I. destruct I as (r & Hr & I).
    apply PL in Hr. destruct r; try destruct I; discriminate.
  - rewrite E3, I6. destruct (flat_map (context_entries x) table) as [|c l] eqn:EE; [reflexivity|]. exfalso.
    assert (I : In c (flat_map (context_entries x) table)) by (rewrite EE; left; reflexivity). apply in_flat_map in I. destruct I as (r & Hr & I).
    apply PL in Hr. destruct r; try destruct I; discriminate.
Qed.
Lemma scanner_back : mt_scanner m = None.
Proof.
  rewrite (mb_scanner _ _ _ _ _ _ _ B). unfold build_scanner. destruct (compbrl_triggers table) as [|k l] eqn:E; [reflexivity|]. exfalso.
  assert (I : In k (compbrl_triggers table)) by (rewrite E; left; reflexivity). unfold compbrl_triggers in I. apply in_flat_map in I.
  destruct I as (r & Hr & I). apply PL in Hr. destruct r; try destruct I; discriminate.
Qed.
(** ** Restrictions *)
Notation kc := (build_constrainers is_alphabetic read_dictionary Backward x table).
Lemma no_back_dots f : (forall r, In r table -> f r = None) -> backward_dots Backward table f = None.
Proof.
  intros H. unfold backward_dots. cbn [is_backward]. apply last_some_none. intros r Hr. rewrite (H r Hr). reflexivity.
Qed.
Lemma limits_back w spans lim : no_computer spans -> limits_of kc w spans = Ok lim -> forall q,
  flag_at k_comp6 lim q = false /\ (forall c, nth_error w q = Some c -> (flag_at k_dont_contract lim q = true <-> a_litdigit table c)) /\
  flag_at k_digit lim q = false /\ flag_at k_uppercase lim q = false /\ flag_at k_titlecase lim q = false.
Proof.
  intros NC. unfold limits_of. cbn [build_constrainers kc_numeric kc_caps kc_number kc_hyphen kc_punct].
  assert (BC : build_caps is_alphabetic Backward x table = None) by (unfold build_caps; rewrite !no_back_dots by (intros r Hr; apply PL in Hr; destruct r; try discriminate Hr; reflexivity); reflexivity).
  assert (BN : build_number is_alphabetic Backward x table = None) by (unfold build_number; rewrite !no_back_dots by (intros r Hr; apply PL in Hr; destruct r; try discriminate Hr; reflexivity); reflexivity).
  rewrite BC, BN. unfold build_hyphen. cbn [is_backward optional bind fst snd]. intros E q. injection E as <-.
  assert (CM : comp_mark spans (length w) q = false).
  { unfold comp_mark. destruct (existsb _ spans) eqn:E; [|reflexivity]. apply existsb_exists in E. destruct E as (s & Hs & E). apply andb_prop in E. destruct E as [E _]. apply andb_prop in E. destruct E as [E _].
    apply str_eqb_eq in E. destruct (NC s Hs E). }
  destruct (Nat.lt_ge_cases q (length w)) as [L|L].
  - rewrite !flag_map by exact L. cbn [k_comp6 k_dont_contract k_digit k_uppercase k_titlecase mem_nat existsb]. split; [exact CM|]. split; [|auto]. intros c Hc. rewrite <- (litdigits is_alphabetic compat x table EX PL). unfold build_numeric.
    destruct (is_empty (digits x)) eqn:EE.
    + destruct (digits x); [|discriminate EE]. destruct q; cbn; split; discriminate.
    + rewrite (no_mid table PL), (no_extra table PL), plain_marks. rewrite (nth_error_nth (map (fun c => mem c (digits x)) w) q (x := mem c (digits x))); [tauto|]. rewrite nth_error_map. unfold str, char in *. rewrite Hc. reflexivity.
  - assert (Z : forall f g, flag_at f (map g (List.seq 0 (length w))) q = false).
    { intros f g. unfold flag_at. rewrite nth_error_map. rewrite (proj2 (nth_error_None (List.seq 0 (length w)) q)); [reflexivity|]. rewrite seq_length. exact L. }
    rewrite !Z. split; [reflexivity|]. split; [|auto]. intros c Hc. apply nth_error_None in L. unfold str, char in *. congruence.
Qed.
(** ** Unknown cells *)
Lemma fallback_unknown c t : (c < 16 ^ 6)%N -> fallback_piece p c = Ok t -> unknown x table c (r_output t).
Proof.
  intros LT E. destruct (mb_rules _ _ _ _ _ _ _ B) as (p0 & E0 & _ & _ & _ & E1 & _ & _ & _ & E5 & _ & E7). destruct (compile_spec _ _ _ _ _ _ E0) as (_ & _ & _ & I4 & _ & _ & _ & I8 & _ & I10).
  unfold fallback_piece in E. rewrite E1, I4 in E. replace (character_lookup Backward x table compat c) with (@None resolved) in E by (unfold character_lookup, character_table; cbn [is_backward]; destruct compat; reflexivity).
  rewrite E5, I8 in E. pose proof (undefined_last table) as U. destruct (undefined_dots table) as [g|].
  - injection E as <-. left. exists g. auto.
  - right. split; [exact U|]. destruct (escape_numeral c LT) as (s & Es & N). exists s. split; [exact N|].
    rewrite E7, I10 in E. destruct (handle_undefined (x_defs x) c) as [h| |] eqn:EH; try discriminate E. injection E as <-. cbn [r_output resolved_new].
    unfold handle_undefined in EH. rewrite Es in EH. apply spell_spelled. exact EH.
Qed.
Lemma unknown_unique c s s' : unknown x table c s -> unknown x table c s' -> s = s'.
Proof.
  clear B PL EX.
  intros H H'. destruct H as [(g & L & ->)|(U & ds & ND & SP)], H' as [(g' & L' & ->)|(U' & ds' & ND' & SP')].
  - pose proof (the_last_unique _ _ _ _ L L') as E. congruence.
  - exfalso. destruct L as (l1 & l2 & E & _). apply (U' g). rewrite E. apply in_elt.
  - exfalso. destruct L' as (l1 & l2 & E & _). apply (U g'). rewrite E. apply in_elt.
  - rewrite (numeral_unique _ _ ND _ ND') in SP. eapply spelled_unique; eauto.
Qed.
Lemma reading_unique dots r r' : the_reading compat x table dots r -> the_reading compat x table dots r' -> r = r'.
Proof.
  clear B PL EX.
  assert (IN1 : forall (P : rule -> Prop) s, the_first table P s -> In s table /\ P s) by (intros P s (l1 & l2 & -> & H & _); split; [apply in_elt|exact H]).
  assert (IN2 : forall (P : rule -> Prop) s, the_last table P s -> In s table /\ P s) by (intros P s (l1 & l2 & -> & H & _); split; [apply in_elt|exact H]).
  unfold the_reading. destruct compat.
  - intros [H|[N [H|[N2 H]]]] [H'|[N' [H'|[N2' H']]]]; try (eapply the_last_unique; eassumption); try (eapply the_first_unique; eassumption); exfalso;
      try (apply IN2 in H; destruct H as [H1 H2]); try (apply IN2 in H'; destruct H' as [H1' H2']); try (apply IN1 in H; destruct H as [H1 H2]); try (apply IN1 in H'; destruct H' as [H1' H2']);
      first [exact (N' _ H1 H2)|exact (N _ H1' H2')|exact (N2' _ H1 H2)|exact (N2 _ H1' H2')].
  - intros [H|[N H]] [H'|[N' H']]; try (eapply the_last_unique; eassumption); exfalso; [apply IN2 in H; destruct H as [H1 H2]; exact (N' _ H1 H2)|apply IN2 in H'; destruct H' as [H1 H2]; exact (N _ H1 H2)].
Qed.
Lemma longest_back_unique u dots text dots' text' : longest_back lower compat x table u dots text -> longest_back lower compat x table u dots' text' -> dots = dots' /\ text = text'.
Proof.
  clear B PL EX.
  intros (F & M & r & L & S1) (F' & M' & r' & L' & S2).
  assert (dots = dots') as <-.
  { apply (begins_same lower u); [apply F|apply F'|]. pose proof (M _ F'). pose proof (M' _ F). lia. }
  split; [reflexivity|]. pose proof (reading_unique _ _ _ L L') as <-. apply (says_unique x r text dots text' dots S1 S2).
Qed.
Lemma reads_back_unique u o : reads_back lower compat x table u o -> forall o', reads_back lower compat x table u o' -> o = o'.
Proof.
  clear B PL EX.
  assert (NE : forall text dots, ~ longest_back lower compat x table [] dots text).
  { intros text dots ((T & _ & BG & _) & _). apply begins_length in BG. destruct dots; [congruence|cbn in BG; lia]. }
  induction 1 as [|u text dots out L R IH|c u s out NF A R IH]; intros o' R'; inversion R' as [|u' text' dots' out' L' R2|c' u' s' out' NF' A' R2]; subst; try reflexivity; try (exfalso; eapply NE; eassumption).
  - destruct (longest_back_unique _ _ _ _ _ L L') as [<- <-]. f_equal. apply IH, R2.
  - exfalso. destruct L as (F & _). exact (NF' _ F).
  - exfalso. destruct L' as (F & _). exact (NF _ F).
  - f_equal; [eapply unknown_unique; eauto|apply IH, R2].
Qed.
(** ** The walk *)
Section Walking.
Variable w : str.
Variable spans : list span.
Variable lim : pos_flags.
Hypothesis NC : no_computer spans.
Hypothesis EL : limits_of kc w spans = Ok lim.
Hypothesis UC : forall c, In c w -> (c < 16 ^ 6)%N.
Notation opts := (options lower p lim).
Lemma options_fit_back pos prev rest t : rest = skipn pos w -> In t (opts pos prev rest) ->
  exists dots text r, the_reading compat x table dots r /\ says x r text dots /\ fits_back lower x table rest dots /\ a_piece_back t dots text.
Proof.
  intros ER H. destruct (limits_back w spans lim NC EL pos) as (C6 & DC & _). unfold options in H. rewrite C6 in H. apply filter_In in H. destruct H as [H Q].
  destruct (found_back rest prev t H) as (dots & text & r & Hr & RD & SY & TN & BG & AP). exists dots, text, r. split; [exact RD|]. split; [exact SY|]. split; [|exact AP].
  split; [exact TN|]. split; [exists r; split; [exact Hr|exists text; exact SY]|].
  split; [exact BG|]. intros L c Hc A. apply andb_prop in Q. destruct Q as [_ Q]. destruct AP as (AL & _). rewrite AL in Q.
  destruct rest as [|c0 r0]; [discriminate Hc|]. injection Hc as ->. pose proof (next_char w pos c r0 ER) as Hn.
  apply (DC c Hn) in A. rewrite A in Q. cbn [negb orb] in Q. apply Nat.leb_le in Q. lia.
Qed.
Lemma fit_options_back pos prev rest dots : rest = skipn pos w -> fits_back lower x table rest dots -> exists t text, In t (opts pos prev rest) /\ a_piece_back t dots text.
Proof.
  intros ER (TN & (r & Hr & HD) & BG & ND). destruct (back_found rest prev r dots Hr HD BG) as (t & text & I & AP). exists t, text. split; [|exact AP].
  destruct (limits_back w spans lim NC EL pos) as (C6 & DC & _). unfold options. rewrite C6. apply filter_In. split; [exact I|].
  destruct AP as (AL & _ & _ & (r' & O & Hr')). unfold punc_ok. rewrite O, AL. replace (match r' with RPrepunc _ _ _ => _ | _ => _ end) with true by (apply PL in Hr'; destruct r'; try discriminate Hr'; reflexivity).
  cbn [andb]. destruct (flag_at k_dont_contract lim pos) eqn:D; [|reflexivity]. cbn [negb orb].
  apply Nat.leb_le. destruct (Nat.le_gt_cases (length dots) 1) as [L|L]; [exact L|]. exfalso.
  destruct rest as [|c r0]; [apply begins_length in BG; cbn in BG; lia|]. apply (ND L c eq_refl). refine (proj1 (DC c _) eq_refl). exact (next_char w pos c r0 ER).
Qed.
Lemma pick_reads_back pos prev rest t : rest = skipn pos w -> pick lower p lim pos prev rest = Some (Ok t) ->
  (exists dots, longest_back lower compat x table rest dots (r_output t) /\ r_length t = length dots) \/
  (exists c r, rest = c :: r /\ (forall dots, ~ fits_back lower x table rest dots) /\ unknown x table c (r_output t) /\ r_length t = 1).
Proof.
  intros ER E. unfold pick in E. destruct nothing_else as (B2 & _). assert (NX : nocross_candidates lower p lim rest prev pos = []) by (unfold nocross_candidates; rewrite B2; reflexivity).
  rewrite NX in E. change (max_weight []) with (@None resolved) in E. cbn iota in E.
  pose proof (max_weight_spec (opts pos prev rest)) as M. destruct (max_weight (opts pos prev rest)) as [t'|].
  - injection E as ->. destruct M as [I M]. destruct (options_fit_back pos prev rest t ER I) as (dots & text & r & RD & SY & F & AP). left. exists dots.
    destruct AP as (A1 & A2 & A3 & _). rewrite A3. split; [|exact A1]. split; [exact F|]. split; [|eauto].
    intros dots' F'. destruct (fit_options_back pos prev rest dots' ER F') as (t' & text' & I' & (_ & W' & _)). specialize (M t' I'). lia.
  - destruct rest as [|c r]; [discriminate E|]. injection E as E. right. exists c, r. split; [reflexivity|]. split.
    + intros dots F. destruct (fit_options_back pos prev (c :: r) dots ER F) as (t' & text' & I' & _). rewrite M in I'. destruct I'.
    + split; [apply fallback_unknown; [|exact E]|].
      * apply UC. rewrite <- (firstn_skipn pos w). apply in_app_iff. right. rewrite <- ER. left. reflexivity.
      * pose proof (compiled_ok compat read_dictionary Backward x table lower _ (mb_rules _ _ _ _ _ _ _ B)) as OK. apply (fallback_shape lower p OK c t E).
Qed.
Variable ind : list (list resolved).
Hypothesis IND : forall q, nth q ind [] = [].
Lemma walk_reads_back pos prev rest out : walk lower p lim ind pos prev rest out -> rest = skipn pos w -> reads_back lower compat x table rest (outputs out).
Proof.
  induction 1 as [pos prev rest P|pos prev rest t out P W IH]; intros ER; rewrite IND; cbn [app].
  - unfold pick in P. destruct (max_weight (nocross_candidates lower p lim rest prev pos)), (max_weight (opts pos prev rest)), rest; try discriminate P. constructor.
  - unfold outputs. cbn [flat_map]. fold (outputs out). specialize (IH ltac:(rewrite ER, skipn_skipn'; f_equal; lia)).
    destruct (pick_reads_back pos prev rest t ER P) as [(dots & L & E)|(c & r & -> & NF & A & E)]; rewrite E in IH.
    + eapply BackRule; [exact L|exact IH].
    + apply BackUnknown; assumption.
Qed.
End Walking.
Notation trace := (main_trace lower upper sort m).
Lemma emph_back : in_emph (mt_indicators m) = [].
Proof.
  destruct (mb_indicators _ _ _ _ _ _ _ B) as (o1 & o2 & i0 & _ & _ & E & _ & E2 & _).
  rewrite E2. unfold build_indicators in E. destruct (build_letter_ind _ _ _ _); try discriminate E. cbn [tbind] in E. destruct (build_nocont_ind _ _ _); try discriminate E. cbn [tbind] in E.
  injection E as <-. cbn [in_emph]. unfold build_emph. replace (emph_names table) with (@nil str); [reflexivity|]. unfold emph_names.
  revert PL. clear. generalize (@nil str). induction table as [|r l IH]; intros a PL; [reflexivity|]. cbn [fold_left].
  pose proof (PL r (or_introl eq_refl)) as Pr. replace (emph_name r) with (@None str) by (destruct r; try discriminate Pr; reflexivity). apply IH. intros q Hq. apply PL. right. exact Hq.
Qed.
Lemma trace_reads_back w spans out : no_computer spans -> (forall c, In c w -> (c < 16 ^ 6)%N) -> trace w spans = Ok out -> reads_back lower compat x table w (outputs out).
Proof.
  intros NC UC E. unfold main_trace, enriched in E. rewrite scanner_back in E. cbn [bind] in E. rewrite (mb_constrainers _ _ _ _ _ _ _ B) in E.
  destruct (indications_of lower sort (mt_indicators m) w spans) as [i| |] eqn:Ei; try discriminate E. cbn [bind] in E.
  destruct (limits_of kc w spans) as [l| |] eqn:El; try discriminate E. cbn [bind] in E.
  destruct nothing_else as (_ & NM & NCx). pose proof (compiled_ok compat read_dictionary Backward x table lower _ (mb_rules _ _ _ _ _ _ _ B)) as OK.
  apply (run_walk_turned lower upper p l i w (fun q => proj1 (proj2 (proj2 (limits_back w spans l NC El q)))) (fun q => proj1 (proj2 (proj2 (proj2 (limits_back w spans l NC El q)))))
    (fun q => proj2 (proj2 (proj2 (proj2 (limits_back w spans l NC El q))))) out OK NM NCx) in E.
  eapply walk_reads_back; [exact NC|exact El|exact UC| |exact E|reflexivity].
  intros q. destruct (nth q i []) as [|t l0] eqn:En; [reflexivity|]. exfalso.
  assert (SO : sort_returns sort (emph_events (in_emph (mt_indicators m)) 0 w spans)) by (left; rewrite emph_back; cbn; lia).
  destruct (indications_spec compat x table (mt_indicators m) lower sort w spans (mb_indicators _ _ _ _ _ _ _ B) SO) as (em & caps & i' & _ & _ & E3 & _ & _ & E6).
  rewrite Ei in E3. injection E3 as <-. destruct (nth_in_or_default q i []) as [H'|H']; [|rewrite H' in En; discriminate En].
  destruct (E6 _ t H') as (r & dots & Hr & S & _); [rewrite En; left; reflexivity|]. rewrite (no_sign table PL r Hr) in S. discriminate S.
Qed.
Lemma trace_returns_back w spans : exists out, trace w spans = Ok out.
Proof.
  apply (pass_total is_alphabetic compat read_dictionary Backward x table lower upper sort m B DR).
  - intros k q E. rewrite scanner_back in E. discriminate E.
  - intros sp _. left. rewrite emph_back. cbn. lia.
Qed.
End Table.
