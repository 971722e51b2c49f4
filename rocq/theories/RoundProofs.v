From Coq Require Import Permutation.
From Verif Require Import Base BaseProofs RuleModel TranslationModel TranslationProofs TableModel TableProofs RegexpModel
  RegexpSpec PatternModel MatchProofs TrieModel TrieProofs PropTrie
  HyphenationModel HyphenationProofs LoopModel LoopProofs MultipassProofs PrimaryProofs PrimaryTrace CompileModel CompileSpec
  CompileProofs MainTable ConstraintModel ConstraintSpec ConstraintProofs IndicatorModel IndicatorProofs
  CapsSpec CapsProofs CapsFacts EmphSpec EmphProofs MainSpec StepProofs TraceSpec MainPass StepFacts TraceProofs SignSpec SetupSpec PropMain WordSpec WordProofs
  SaysSpec PropPieces UndefinedSpec PropUndefined RoundSpec.

Lemma text_matches_same lower from : forall input rest, (forall c, In c from -> lower c = [c]) -> input = from ++ rest ->
  text_matches lower from input rest.
Proof.
  induction from as [|c from IH]; intros input rest F ->; cbn [app]; constructor; [apply F; left; reflexivity|].
  apply IH; [intros y Hy; apply F; right; exact Hy|reflexivity].
Qed.
Lemma text_matches_fixed lower from input rest : text_matches lower from input rest -> (forall c, In c input -> lower c = [c]) ->
  input = from ++ rest.
Proof.
  induction 1 as [|y from c input rest L M IH]; intros F; [reflexivity|].
  rewrite (F c (or_introl eq_refl)) in L. injection L as <-. cbn [app]. f_equal. apply IH. intros z Hz. apply F. right. exact Hz.
Qed.

Section Rules.
Variable lower : char -> list char.
Variable table : list rule.
Hypothesis LL : lossless lower table.
Lemma plain_kinds r : In r table -> is_nocross r = false /\ is_comp6 r = false /\ is_match r = false /\ is_context r = false /\
  sign_dots r = None /\ indicator_opcode r = false.
Proof.
  intros I. destruct (ll_plain _ _ LL r I) as [D|(p & P)]; [destruct r; try discriminate D; cbn; auto 10|].
  pose proof (ll_unmarked _ _ LL r I) as U. unfold unmarked in U.
  destruct r; try discriminate P; cbn; auto 10.
  - destruct (U k eq_refl) as (_ & _ & ->). auto 10.
Qed.
Lemma plain_says x r t g text dots : In r table -> plain r = Some (t, g) -> says x r text dots -> text = t /\ dots = g.
Proof.
  intros I P W. destruct r; try discriminate P; cbn [plain says] in *;
    try (injection P as <- <-; exact W); destruct dots0; try discriminate P; try (destruct w; discriminate P);
    try (destruct w; [|discriminate P]); injection P as <- <-; exact W.
Qed.
End Rules.

(** ** Backward *)
Section Back.
Variable is_alphabetic : char -> bool.
Variable compat : bool.
Variable read_dictionary : str -> tres hyph.
Variable x : context.
Variable table : list rule.
Variable lower upper : char -> list char.
Variable sort : list event -> res (list event).
Variable m : main_table.
Hypothesis EX : context_compile is_alphabetic compat table = TOk x.
Hypothesis B : main_built is_alphabetic compat read_dictionary Backward x table m.
Hypothesis LL : lossless lower table.
Notation src := (rule_sources compat Backward x table lower).
Notation entries := (main_entries Backward x table).

Lemma plain_entry r t g : In r table -> plain r = Some (t, g) ->
  exists a, In a entries /\ i_to a = g /\ i_from a = t /\ pre_conditions a = [] /\ post_conditions a = [].
Proof.
  intros I P. unfold entries.
  assert (N : is_nocross r = false) by apply (plain_kinds _ _ LL r I).
  assert (F : forall a, In a (character_entries first_characters r) -> In a entries).
  { intros a H. unfold main_entries. apply in_or_app. left. apply in_flat_map. exists r. split; [exact I|exact H]. }
  assert (O : forall a, In a (character_entries (other_characters Backward x table) r) \/ In a (word_entries x r) -> In a entries).
  { intros a H. unfold main_entries. apply in_or_app. right. apply in_flat_map. exists r. split; [exact I|]. unfold main_entries_of.
    rewrite N. rewrite !in_app_iff. cbn [backward_only is_backward]. tauto. }
  destruct r; try discriminate P; cbn [plain] in P;
    try (injection P as <- <-; eexists; split; [apply O; left; left; reflexivity|cbn; auto]);
    try (injection P as <- <-; eexists; split; [apply F; left; reflexivity|cbn; auto]).
  - destruct dots; try discriminate P. destruct w; try discriminate P. injection P as <- <-.
    eexists. split; [apply O; right; left; reflexivity|cbn; auto].
  - injection P as <- <-. eexists. split; [apply O; right; left; reflexivity|cbn; auto].
  - destruct dots; try discriminate P. injection P as <- <-. eexists. split; [apply O; right; left; reflexivity|cbn; auto].
Qed.
Lemma entry_plain a : In a entries -> exists r t g, In r table /\ plain r = Some (t, g) /\ i_origin a = Some r /\
  i_to a = g /\ i_from a = t /\ pre_conditions a = [] /\ post_conditions a = [].
Proof.
  unfold main_entries. rewrite in_app_iff, !in_flat_map. intros [(r & Hr & H)|(r & Hr & H)]; exists r.
  - cbn [backward_only is_backward] in H. destruct (ll_plain _ _ LL r Hr) as [D|([t g] & P)]; [destruct r; try discriminate D; destruct H|].
    exists t, g. split; [exact Hr|]. split; [exact P|]. destruct r; try (destruct H; fail); cbn in P, H; destruct H as [<-|[]]; injection P as <- <-; cbn; auto.
  - destruct (ll_plain _ _ LL r Hr) as [D|([t g] & P)]; [destruct r; try discriminate D; cbn in H; destruct H|].
    exists t, g. split; [exact Hr|]. split; [exact P|]. unfold main_entries_of in H. rewrite !in_app_iff in H. cbn [backward_only is_backward] in H.
    destruct H as [H|[H|H]].
    + destruct r; try discriminate P; try (destruct H; fail); cbn in P, H; destruct H as [<-|[]]; injection P as <- <-; cbn; auto.
    + destruct r; try discriminate P; destruct H.
    + destruct (is_nocross r); [destruct H|]. destruct r; try discriminate P; cbn in H; try (destruct H; fail); cbn in P;
        try (destruct dots; try discriminate P); try (destruct w; try discriminate P); cbn in H; destruct H as [<-|[]]; injection P as <- <-; cbn; auto.
Qed.
Lemma no_nocross rest prev u : ~ by_nocross src rest prev u.
Proof.
  intros (full & a & F & _). apply in_force_in in F. unfold nocross_entries in F. apply in_flat_map in F. destruct F as (r & Hr & F).
  destruct (plain_kinds _ _ LL r Hr) as (N & _). rewrite N in F. destruct F.
Qed.
Lemma no_found input a u : ~ found src input a u.
Proof.
  intros [H|(e & _ & H)]; destruct H as (p & Hp & _); apply in_flat_map in Hp; destruct Hp as (r & Hr & Hp);
    destruct (plain_kinds _ _ LL r Hr) as (_ & _ & M & C & _).
  - apply match_entry_rule in Hp. destruct Hp as (_ & M' & _). congruence.
  - apply context_entry_rule in Hp. destruct Hp as (_ & M' & _). congruence.
Qed.

(** the input: the dots of some rules *)
Definition code := (str * str)%type.
Definition is_code (p : code) : Prop := exists r, In r table /\ plain r = Some p.
Definition cells (l : list code) : str := flat_map snd l.
Definition texts (l : list code) : str := flat_map fst l.
Lemma cells_fixed l c : Forall is_code l -> In c (cells l) -> lower c = [c] /\ forall g k, ~ In (RLitdigit c g k) table.
Proof.
  intros F H. unfold cells in H. apply in_flat_map in H. destruct H as ([t g] & Hp & Hc). rewrite Forall_forall in F.
  destruct (F _ Hp) as (r & Hr & P). exact (ll_cells _ _ LL r t g c Hr P Hc).
Qed.
Lemma litdigits c : cls_has (x_chars x) CLitdigit c = true -> exists g k, In (RLitdigit c g k) table.
Proof.
  intros H. apply (compile_classes _ _ _ _ _ _ EX) in H.
  inversion H as [r k' c' I1 I2 E1 E2|r k' cs c' I1 I2 I3 E1 E2|pre n c' b post s E0 E1 E2 E3|].
  - subst k' c'. destruct r; cbn in I2; try (destruct I2; fail); repeat (destruct I2 as [I2|I2]; [try discriminate I2|]); try (destruct I2; fail).
    injection I2 as ->. eauto.
  - destruct (ll_plain _ _ LL _ I1) as [D|(p & P)]; destruct r; try discriminate I2; try discriminate D; try discriminate P.
  - assert (I : In (RBase n c b) table) by (rewrite E0; apply in_elt). destruct (ll_plain _ _ LL _ I) as [D|(p & P)]; discriminate.
Qed.

Variable l : list code.
Hypothesis CL : Forall is_code l.
Notation input := (cells l).
Variable lim : pos_flags.
Hypothesis R : table_restricts is_alphabetic read_dictionary Backward x table input [] lim.
Lemma flags p : flag_at k_comp6 lim p = false /\ flag_at k_dont_contract lim p = false /\ flag_at k_digit lim p = false /\
  flag_at k_uppercase lim p = false /\ flag_at k_titlecase lim p = false.
Proof.
  assert (Q : forall b, (b = true -> False) -> b = false) by (intros [|] H; [exfalso; auto|reflexivity]).
  assert (SC : forall f o, sign_cells table f o -> o <> None -> exists r dots, In r table /\ f r = Some dots).
  { intros f [dots|] SC N; [|congruence]. destruct SC as (_ & r & l1 & l2 & E & F & _). exists r, dots. split; [rewrite E; apply in_elt|exact F]. }
  assert (CC : forall u, capital_cells is_alphabetic Backward x table u -> False).
  { intros u (_ & C1 & C2 & _ & N & _). destruct N as [N|N]; [destruct (SC _ _ C1 N) as (r & g & Hr & F)|destruct (SC _ _ C2 N) as (r & g & Hr & F)];
      destruct (plain_kinds _ _ LL r Hr) as (_ & _ & _ & _ & K & _); destruct r; discriminate. }
  split; [|split; [|split; [|split]]]; apply Q; intros H.
  - apply (tr_comp _ _ _ _ _ _ _ _ R) in H. destruct H as ((s & [] & _) & _).
  - apply (tr_number _ _ _ _ _ _ _ _ R) in H. destruct H as (u & (NC & _) & s & _ & (c & Ec & Hc) & _).
    apply (nc_digits _ _ _ NC) in Hc. destruct (litdigits c Hc) as (g & k & I).
    apply nth_error_In in Ec. destruct (cells_fixed l c CL Ec) as [_ N]. exact (N g k I).
  - apply (tr_digit _ _ _ _ _ _ _ _ R) in H. destruct H as (u & ts & (_ & C1 & N & _) & _). destruct (SC _ _ C1 N) as (r & g & Hr & F).
    destruct (plain_kinds _ _ LL r Hr) as (_ & _ & _ & _ & K & _); destruct r; discriminate.
  - apply (tr_upper _ _ _ _ _ _ _ _ R) in H. destruct H as (u & ts & C & _). exact (CC u C).
  - apply (tr_title _ _ _ _ _ _ _ _ R) in H. destruct H as (u & ts & C & _). exact (CC u C).
Qed.
Lemma offered rest prev u : (forall c, In c rest -> In c input) -> by_text src rest prev u ->
  exists t g rest', is_code (t, g) /\ rest = g ++ rest' /\ g <> [] /\ r_input u = g /\ r_output u = t /\ r_length u = length g /\
    punc_ok lim 0 u = true.
Proof.
  intros S H. pose proof (text_offer compat read_dictionary Backward x table lower _ (mb_rules _ _ _ _ _ _ _ B) u rest prev H) as ((_ & L1 & _) & _).
  destruct H as (full & a & F & (rest' & M & _) & ->). apply in_force_in, entry_plain in F.
  destruct F as (r & t & g & Hr & P & O & E1 & E2 & _). exists t, g, rest'. cbn [sought] in M.
  apply text_matches_fixed in M; [|intros c Hc; apply (cells_fixed l c CL); auto]. rewrite E1 in M.
  split; [exists r; auto|]. split; [exact M|]. unfold offer in *. cbn [resolved_new r_input r_output r_length sought given] in *. rewrite E1, E2 in *.
  split; [intros ->; cbn in L1; lia|]. do 3 (split; [reflexivity|]). unfold punc_ok. cbn [r_origin resolved_new]. rewrite O. destruct r; auto; discriminate P.
Qed.
Lemma steps ts : derivation src Backward lim input ts ->
  Forall (fun y => fst y = ByRule /\ 0 < r_length (snd y)) ts /\
  exists l1 l2, l = l1 ++ l2 /\ reached ts = length (cells l1) /\ flat_map (fun y => r_output (snd y)) ts = texts l1.
Proof.
  induction 1 as [|ts [h u] D IH Bst].
  - split; [constructor|]. exists [], l. auto.
  - destruct IH as [SZ (l1 & l2 & El & Er & Et)].
    assert (Lf : left input ts = cells l2).
    { unfold left. rewrite Er, El. unfold cells. rewrite flat_map_app, skipn_app, skipn_all, Nat.sub_diag. reflexivity. }
    assert (In2 : forall c, In c (cells l2) -> In c input) by (intros c Hc; rewrite El; unfold cells; rewrite flat_map_app; apply in_or_app; auto).
    destruct (flags (reached ts)) as (F1 & F2 & F3 & F4 & F5).
    assert (NI : inserted ts = []).
    { clear - SZ. unfold inserted. assert (G : forall acc, acc = [] -> fold_left insert_step ts acc = []); [|apply G; reflexivity].
      induction SZ as [|[h t] ts (A & P) F IH]; intros acc ->; [reflexivity|]. cbn [fold_left]. apply IH. cbn in A, P. subst h. cbn [insert_step].
      destruct (Nat.eqb_spec (r_length t) 0); [lia|reflexivity]. }
    assert (AV : forall v, available src Backward lim input ts v <-> by_text src (cells l2) (previous ts) v).
    { intros v. unfold available. rewrite F1. split.
      - intros (_ & [(_ & X & _)|(O & _)]); [congruence|]. destruct O as [O|[(O & _)|(b' & c' & v' & _ & O & _)]]; [rewrite Lf in O; exact O|exfalso; eapply no_found, O|exfalso; eapply no_found, O].
      - intros O. split; [congruence|]. right. split; [left; rewrite Lf; exact O|]. split; [|intros (v' & _ & X & _); congruence].
        destruct (offered _ _ _ In2 O) as (_ & _ & _ & _ & _ & _ & _ & _ & _ & P). unfold punc_ok in *. destruct (r_origin v) as [r|] eqn:Or; [|reflexivity].
        destruct O as (full & a & F & _ & ->). apply in_force_in, entry_plain in F. destruct F as (r' & t' & g' & Hr & P' & O' & _).
        cbn in Or. rewrite Or in O'. injection O' as ->. destruct r'; auto; discriminate P'. }
    destruct l2 as [|[t g] l2].
    { exfalso. assert (NA : forall v, ~ available src Backward lim input ts v).
      { intros v H. apply AV in H. destruct (offered _ _ _ In2 H) as (t & g & rest & _ & E & N & _). destruct g; [congruence|discriminate E]. }
      destruct h; cbn [best] in Bst.
      - destruct Bst as ((H & _) & _). rewrite Lf in H. eapply no_nocross, H.
      - apply (NA u), Bst.
      - destruct Bst as ((c & r & E & _) & _). rewrite Lf in E. discriminate. }
    assert (CLg : is_code (t, g)) by (rewrite Forall_forall in CL; apply CL; rewrite El; apply in_elt).
    assert (EV : exists v, by_text src (cells ((t, g) :: l2)) (previous ts) v).
    { destruct CLg as (r & Hr & P). destruct (plain_entry r t g Hr P) as (a & Ia & E1 & E2 & P1 & P2).
      destruct (some_in_force compat (trie_ctx Backward x) Backward entries a) as (full & b & IF & Ib & (RV & RV1 & RV2)).
      { intros b Hb. apply (main_oriented Backward x table b Hb). }
      { exact Ia. }
      exists (offer (trie_ctx Backward x) Backward full b), full, b. split; [exact IF|]. split; [|reflexivity].
      cbn [sought] in RV. rewrite P1 in RV1. rewrite P2 in RV2. assert (Z1 : pre_conditions b = []) by (inversion RV1; auto). assert (Z2 : post_conditions b = []) by (inversion RV2; auto).
      exists (cells l2). rewrite Z1, Z2. cbn [sought]. rewrite <- RV, E1. split; [|split; intros ks []].
      apply text_matches_same; [|reflexivity]. intros c Hc. apply (ll_cells _ _ LL r t g c Hr P Hc). }
    assert (UN : forall v, by_text src (cells ((t, g) :: l2)) (previous ts) v -> r_length v = length g /\ r_output v = t /\ g <> []).
    { intros v H. destruct (offered _ _ _ In2 H) as (t' & g' & rest & (r' & Hr' & P') & E & N & E1 & E2 & E3 & _).
      destruct CLg as (r & Hr & P). cbn [cells flat_map snd] in E. apply app_eq_cases in E.
      destruct E as [(e & Ex & _)|(e & Ex & _)].
      - destruct (ll_code _ _ LL r r' t g t' g' e Hr Hr' P P' Ex) as [-> ->]. auto.
      - destruct (ll_code _ _ LL r' r t' g' t g e Hr' Hr P' P Ex) as [-> ->]. auto. }
    assert (h = ByRule /\ by_text src (cells ((t, g) :: l2)) (previous ts) u) as [-> Hu].
    { destruct h; cbn [best] in Bst.
      - exfalso. destruct Bst as ((H & _) & _). eapply no_nocross, H.
      - split; [reflexivity|]. apply AV, Bst.
      - exfalso. destruct EV as (v & Hv). destruct Bst as (_ & NN & _). apply (NN v); [apply AV, Hv|]. unfold new. rewrite NI. intros []. }
    destruct (UN u Hu) as (E1 & E2 & E3).
    split; [apply Forall_app; split; [exact SZ|constructor; [|constructor]]; cbn; split; [reflexivity|destruct g; [congruence|cbn in E1; lia]]|].
    exists (l1 ++ [(t, g)]), l2. split; [rewrite <- app_assoc; exact El|]. split.
    + rewrite reached_app, reached_one. cbn [snd]. rewrite Er, E1. unfold cells. rewrite flat_map_app, app_length. cbn [flat_map snd]. rewrite app_nil_r. reflexivity.
    + rewrite flat_map_app. unfold texts. rewrite flat_map_app. f_equal; [exact Et|]. cbn [flat_map fst snd]. rewrite !app_nil_r. exact E2.
Qed.
End Back.

Section Backward.
Variable is_alphabetic : char -> bool.
Variable compat : bool.
Variable read_dictionary : str -> tres hyph.
Variable x : context.
Variable table : list rule.
Variable lower upper : char -> list char.
Variable sort : list event -> res (list event).
Variable m : main_table.
Hypothesis EX : context_compile is_alphabetic compat table = TOk x.
Hypothesis B : main_built is_alphabetic compat read_dictionary Backward x table m.
Hypothesis LL : lossless lower table.
Hypothesis DR : dictionaries_read read_dictionary.
Hypothesis SR : sort_rearranges sort.
Notation src := (rule_sources compat Backward x table lower).

Lemma code_nonempty t g : is_code table (t, g) -> g <> [].
Proof.
  intros (r & Hr & P) ->. destruct (plain_entry x table lower LL r t [] Hr P) as (a & Ia & E1 & E2 & P1 & P2).
  destruct (some_in_force compat (trie_ctx Backward x) Backward (main_entries Backward x table) a) as (full & b & IF & Ib & (RV & RV1 & RV2)).
  { intros b Hb. apply (main_oriented Backward x table b Hb). }
  { exact Ia. }
  cbn [sought] in RV. rewrite E1 in RV.
  assert (H : by_text src [] None (offer (trie_ctx Backward x) Backward full b)).
  { exists full, b. split; [exact IF|]. split; [|reflexivity]. rewrite P1 in RV1. rewrite P2 in RV2.
    assert (Z1 : pre_conditions b = []) by (inversion RV1; auto). assert (Z2 : post_conditions b = []) by (inversion RV2; auto).
    exists []. rewrite Z1, Z2. cbn [sought]. rewrite <- RV. split; [constructor|split; intros ks []]. }
  destruct (text_offer compat read_dictionary Backward x table lower _ (mb_rules _ _ _ _ _ _ _ B) _ _ _ H) as ((_ & L & _) & _).
  unfold offer in L. cbn in L. rewrite <- RV in L. cbn in L. lia.
Qed.
Lemma no_scanner d t (mm : main_table) : main_built is_alphabetic compat read_dictionary d t table mm -> mt_scanner mm = None.
Proof.
  intros B'. rewrite (mb_scanner _ _ _ _ _ _ _ B'). unfold build_scanner.
  assert (E : compbrl_triggers table = []); [|rewrite E; reflexivity].
  destruct (compbrl_triggers table) as [|k l] eqn:E; [reflexivity|]. exfalso.
  assert (I : In k (compbrl_triggers table)) by (rewrite E; left; reflexivity). unfold compbrl_triggers in I. apply in_flat_map in I.
  destruct I as (r & Hr & I). destruct (ll_plain _ _ LL r Hr) as [D|(p & P)]; destruct r; try destruct I; discriminate.
Qed.
Lemma written_outputs ind lim : (forall p, nth p ind [] = []) -> (forall p, flag_at k_uppercase lim p = false /\ flag_at k_titlecase lim p = false) ->
  forall ts pos first, flat_map r_output (written upper Backward lim ind pos first ts) = flat_map (fun y => r_output (snd y)) ts.
Proof.
  intros NI NF. induction ts as [|[h t] ts IH]; intros pos first; cbn [written].
  - rewrite NI. destruct first; reflexivity.
  - rewrite NI. replace (if first then [] else []) with (@nil resolved) by (destruct first; reflexivity). cbn [app flat_map snd]. rewrite IH. f_equal.
    destruct (NF pos) as [U T]. destruct h; cbn [shown]; unfold cased; rewrite ?U, ?T; reflexivity.
Qed.
Lemma backward_text l out : Forall (is_code table) l -> main_trace lower upper sort m (cells l) [] = Ok out -> flat_map r_output out = texts l.
Proof.
  intros CL E. destruct (pass_traced _ _ _ _ _ _ lower upper sort m B DR (cells l) [] out SR E) as (sp & em & caps & ind & lim & ts & T).
  assert (sp = []) as ->.
  { pose proof (tc_spans _ _ _ _ _ _ _ _ _ _ _ _ _ _ _ _ _ _ _ T) as S. unfold enriched in S. rewrite (no_scanner _ _ _ B) in S. congruence. }
  pose proof (restricted _ _ _ _ _ _ _ _ _ _ B _ _ _ _ _ _ _ _ _ T) as R.
  pose proof (fun p => flags is_alphabetic compat read_dictionary x table lower EX LL l CL lim R p) as F.
  rewrite (tc_out _ _ _ _ _ _ _ _ _ _ _ _ _ _ _ _ _ _ _ T), written_outputs.
  - destruct (steps is_alphabetic compat read_dictionary x table lower m EX B LL l CL lim R ts) as (_ & l1 & l2 & El & Er & Et); [apply T|].
    rewrite Et. destruct (tc_end _ _ _ _ _ _ _ _ _ _ _ _ _ _ _ _ _ _ _ T) as (EN & _). rewrite Er, El in EN. unfold cells in EN. rewrite flat_map_app, app_length in EN.
    destruct l2 as [|[t g] l2]; [rewrite El, app_nil_r; reflexivity|]. exfalso. cbn [flat_map snd] in EN. rewrite app_length in EN.
    assert (g <> []) by (apply (code_nonempty t); rewrite Forall_forall in CL; apply CL; rewrite El; apply in_elt). destruct g; [congruence|]. cbn [length] in EN. unfold code, str, char in *. lia.
  - intros p. destruct (nth_in_or_default p ind []) as [I|E0]; [|exact E0]. destruct (nth p ind []) as [|t r]; [reflexivity|]. exfalso.
    destruct (tc_signs _ _ _ _ _ _ _ _ _ _ _ _ _ _ _ _ _ _ _ T _ t I (or_introl eq_refl)) as (q & dots & Hq & K & _).
    destruct (plain_kinds _ _ LL q Hq) as (_ & _ & _ & _ & K' & _). congruence.
  - intros p. destruct (F p) as (_ & _ & _ & F4 & F5). auto.
Qed.
End Backward.
