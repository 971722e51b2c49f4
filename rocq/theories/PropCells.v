(** C69: what a forward translation is written with - for tables in use: braille only. *)
From Coq Require Import Permutation Strings.String.
From Coq Require Import List.
From Verif Require Import Base BaseProofs RuleModel TranslationModel TableModel TableProofs RegexpModel PatternModel BrailleModel BrailleProofs
  OperandModel OperandSpec TestSpec PropContext HyphenationModel TrieModel LoopModel PrimaryProofs CompileModel CompileSpec CompileProofs MainTable
  ConstraintModel ConstraintSpec ConstraintProofs IndicatorModel EmphSpec MainSpec TraceSpec MainPass StepFacts TraceProofs
  PassSpec PropMultipass PropPasses PropSwap PropMain PropMainExamples PropUndefined PipelineModel PipelineSpec PipelineProofs PropPipeline
  LineSpec ParserModel IncludeModel PropTableText PropInclude FaultSpec FaultProofs TranslatorModel PropFaults SaysSpec PropPieces.

(** ** Specification *)
(** the cells written in an operand, in the operands of a rule *)
Definition item_cells (i : item) : str :=
  match i with
  | Cells s | Dots (Explicit s) | CellList s => s
  | Cell c => [c]
  | CellsList l => concat l
  | _ => []
  end.
Definition rule_cells (r : rule) : str :=
  match spelling r with Some (_, items) => flat_map item_cells items | None => [] end.
(** what the actions of a pass write, besides what they keep *)
Definition pass_writes (A : char -> Prop) (table : list rule) (action : list action_instr) : Prop :=
  (forall s, In (ActString s) action -> Forall A s) /\ (forall s, In (ActDots s) action -> Forall A s) /\
  (forall name c s, In (ActSwapClass name) action -> swaps_to table name c s -> Forall A s).
(** a context rule must not keep the text it replaces *)
Definition context_writes (A : char -> Prop) (action : list action_instr) : Prop :=
  (forall s, In (ActString s) action -> Forall A s) /\ (forall s, In (ActDots s) action -> Forall A s) /\
  (forall name, ~ In (ActSwapClass name) action) /\ ~ In ActReplace action.
Definition writes_only (A : char -> Prop) (table : list rule) : Prop := forall r, In r (filter (is_direction Forward) table) ->
  Forall A (rule_cells r) /\
  match r with
  | RContext _ action _ => context_writes A action
  | RPass2 _ action _ | RPass3 _ action _ | RPass4 _ action _ => pass_writes A table action
  | _ => True
  end.
(** Unicode braille, and the cells with virtual dots in a private use plane *)
Definition braille_char (c : char) : Prop := (0x2800 <= c <= 0x28FF \/ 0xF0000 <= c <= 0xF7FFF)%N.

(** the same for a table read from text: what is to be said besides the dots operands *)
Definition braille_actions (table : list rule) : Prop := forall r, In r (filter (is_direction Forward) table) ->
  match r with
  | RContext _ action _ => (forall s, In (ActString s) action -> Forall braille_char s) /\ ~ In ActReplace action /\ forall name, ~ In (ActSwapClass name) action
  | RPass2 _ action _ | RPass3 _ action _ | RPass4 _ action _ =>
      (forall s, In (ActString s) action -> Forall braille_char s) /\
      forall name chars replacement, In (ActSwapClass name) action -> ~ In (RSwapcc name chars replacement) table
  | _ => True
  end.

(** ** The main pass *)
Section Main.
Variable A : char -> Prop.
Hypothesis FB : forall c u, fallback c = Ok u -> A u.
Variable is_alphabetic : char -> bool.
Variable compat : bool.
Variable read_dictionary : str -> tres hyph.
Variable x : context.
Variable rules : list rule.
Variable lower upper : char -> list char.
Variable sort : list event -> res (list event).
Variable m : main_table.
Hypothesis EX : context_compile is_alphabetic compat rules = TOk x.
Hypothesis B : main_built is_alphabetic compat read_dictionary Forward x rules m.
Hypothesis DR : dictionaries_read read_dictionary.
Hypothesis SR : sort_rearranges sort.
Hypothesis W : forall r, In r rules -> Forall A (rule_cells r).
Hypothesis WC : forall test action k, In (RContext test action k) rules -> context_writes A action.

Lemma explicit_in c s r : In (c, s) (explicit_def r) -> s = rule_cells r.
Proof.
  destruct r; cbn; try (intros []; fail); (intros [E|[]]; injection E as <- <-; unfold rule_cells; cbn; rewrite ?app_nil_r; reflexivity).
Qed.
Lemma defs_in c s : defs_get (x_defs x) c = Some s -> Forall A s.
Proof.
  intros D. apply (compile_defs is_alphabetic compat rules x c s EX) in D. destruct D as (h & BH & Wn). apply wins_In in Wn. revert c s Wn.
  assert (I0 : forall c s, In (c, s) (explicit_defs rules) -> Forall A s).
  { intros c s I. apply in_flat_map in I. destruct I as (r & Ir & I). rewrite (explicit_in c s r I). apply W, Ir. }
  revert I0. clear - BH. revert BH. generalize (explicit_defs rules). intros h0 BH.
  induction BH as [h|h n d b s rest h' Wn BH IH|h n d b rest h' N BH IH|h r rest h' N BH IH]; auto.
  intros I0. apply IH. intros c0 s0 I. apply in_app_iff in I. destruct I as [I|[[= <- <-]|[]]]; eauto. eapply I0, wins_In, Wn.
Qed.
Lemma spells_in text dots : spells (x_defs x) text dots -> Forall A dots.
Proof. induction 1 as [|c s r t E S IH]; [constructor|]. apply Forall_app. split; [eapply defs_in, E|exact IH]. Qed.
Lemma says_in r text dots : In r rules -> says x r text dots -> Forall A dots.
Proof.
  intros I S. pose proof (W r I) as Wr. unfold rule_cells in Wr.
  destruct r; try destruct dots0; cbn in S, Wr; rewrite ?app_nil_r in Wr; try contradiction; try (destruct S as [-> ->]; exact Wr);
    try (destruct S as [-> S]; try (eapply spells_in, S); try (subst; exact Wr); eapply defs_in, S).
Qed.
Lemma undefined_in c h : handle_undefined (x_defs x) c = Ok h -> Forall A h.
Proof.
  unfold handle_undefined. generalize (escape_char c). intros s. revert h. induction s as [|y s IH]; cbn [spell]; intros h E; [injection E as <-; constructor|].
  destruct (defs_get (x_defs x) y) as [g|] eqn:G.
  - destruct (spell (x_defs x) s) as [t| |]; try discriminate. injection E as <-. apply Forall_app. split; [eapply defs_in, G|auto].
  - destruct (fallback y) as [g| |] eqn:F; try discriminate. destruct (spell (x_defs x) s) as [t| |]; try discriminate. injection E as <-.
    constructor; [eapply FB, F|auto].
Qed.
Lemma actions_in replaced action : context_writes A action -> Forall A (flat_map (action_output (table_swap x) replaced) action).
Proof.
  intros (S & D & N & R). apply Forall_flat_map. apply Forall_forall. intros i I. destruct i; cbn [action_output]; try constructor; eauto.
  all: first [destruct (R I)|destruct (N _ I)].
Qed.
Lemma undefined_dots_in dots : undefined_dots rules = Some dots -> Forall A dots.
Proof.
  intros E. assert (I : In (RUndefined dots) rules).
  { unfold undefined_dots in E. revert E. assert (G : forall l u, fold_left (fun u r => match r with RUndefined dots => Some dots | _ => u end) l u = Some dots -> u = Some dots \/ In (RUndefined dots) l).
    { induction l as [|r l IH]; cbn [fold_left]; intros u E; [auto|]. destruct (IH _ E) as [H|H]; [|right; right; exact H].
      destruct r; auto. injection H as ->. right. left. reflexivity. }
    intros E. destruct (G rules None E) as [H|H]; [discriminate|exact H]. }
  specialize (W _ I). unfold rule_cells in W. cbn in W. rewrite app_nil_r in W. exact W.
Qed.
Lemma context_found rest b e u : pattern_offers lower (flat_map (context_entries x) rules) e b rest u -> Forall A (r_output u).
Proof.
  intros (p & Hp & F). apply in_flat_map in Hp. destruct Hp as (r & Hr & Hp). destruct r; cbn [context_entries] in Hp; try (destruct Hp; fail).
  destruct (context_insert x test action _ Main) as [q| |] eqn:CI; try (destruct Hp; fail). destruct Hp as [<-|[]].
  destruct (rule_offer _ _ _ _ _ _ _ _ _ _ _ CI F) as (_ & O & _). rewrite O. apply actions_in. eapply WC, Hr.
Qed.
Notation src := (rule_sources compat Forward x rules lower).
Lemma entry_in l rest prev u : l = main_entries Forward x rules \/ l = nocross_entries x rules \/ l = comp6_entries x rules ->
  rule_offers compat Forward x lower l rest prev u -> Forall A (r_output u).
Proof.
  intros EL H. assert (C : forall r, r_origin u = Some r -> is_context r = false).
  { intros r O. destruct H as (full & a & F & _ & ->). apply in_force_in in F. change (i_origin a = Some r) in O. destruct EL as [-> |[-> | ->]].
    - apply main_entry_rule in F. destruct F as (r' & _ & O' & _ & _ & C & _). rewrite O in O'. injection O' as <-. exact C.
    - apply nocross_oriented in F. destruct F as (_ & r' & _ & O' & N). rewrite O in O'. injection O' as <-. destruct r; try discriminate N; reflexivity.
    - apply comp6_entry_rule in F. destruct F as (r' & _ & O' & N). rewrite O in O'. injection O' as <-. destruct r; try discriminate N; reflexivity. }
  destruct (entry_says _ _ _ _ _ _ lower m B l rest prev u EL H) as (r & Ir & O & [K|(text & dots & S & _ & ->)]); [rewrite (C r O) in K; discriminate|].
  exact (says_in r text dots Ir S).
Qed.
Lemma found_in input a u : found src input a u -> Forall A (r_output u).
Proof.
  intros [H|(e & _ & H)]; [|eapply context_found, H].
  destruct (match_says _ _ _ _ _ _ lower m B _ _ _ H) as (r & Ir & O & [K|(text & dots & S & _ & ->)]); [|exact (says_in r text dots Ir S)].
  destruct H as (p & Hp & F). apply in_flat_map in Hp. destruct Hp as (r' & Hr & Hp). apply match_entry_rule in Hp. destruct Hp as (_ & M & O').
  rewrite (cpat_find_origin _ _ _ _ _ _ F), O' in O. injection O as ->. destruct r; discriminate.
Qed.
Lemma best_in lim input a h u : best src Forward lim input a (h, u) -> Forall A (r_output u).
Proof.
  intros H. destruct h; cbn [best] in H.
  - destruct H as ((H & _) & _). eapply entry_in, H. auto.
  - destruct H as (H & _). unfold available in H. destruct (flag_at k_comp6 lim (reached a)).
    + eapply entry_in, H. auto.
    + destruct H as (_ & [(D & _)|(H & _)]); [discriminate D|].
      destruct H as [H|[(H & _)|(b & c & v & _ & H & _ & _ & _ & ->)]]; [eapply entry_in, H; auto|eapply found_in, H|].
      exact (found_in _ _ _ H).
  - pose proof H as H0. destruct H as ((c & r & _ & H) & _). cbn [by_character rule_sources] in H. unfold character_offers in H.
    destruct (character_lookup Forward x rules compat c) as [t|] eqn:E.
    + subst u. assert (I : In (c, t) (character_table Forward x rules)).
      { unfold character_lookup in E. apply assoc_in in E. destruct compat; [exact E|apply in_rev, E]. }
      assert (WW : forall f r0, f = first_characters \/ f = other_characters Forward x rules -> In r0 rules -> In (c, t) (char_pieces f r0) -> Forall A (r_output t)).
      { intros f r0 F Hr0 I0. unfold char_pieces in I0. apply in_map_iff in I0. destruct I0 as ([c' g] & [= <- <-] & I0).
        destruct (character_says Forward x rules f r0 (mk_ins [c'] g None None (rule_precedence r0) [] Main (Some r0)) F) as [_ S].
        { unfold character_entries. apply in_map_iff. exists (c', g). auto. }
        exact (says_in r0 _ _ Hr0 S). }
      unfold character_table in I. cbn [is_backward] in I. rewrite in_app_iff, !in_flat_map in I.
      destruct I as [(r0 & H1 & H2)|(r0 & H1 & H2)]; (eapply WW; [|exact H1|exact H2]; auto).
    + destruct (undefined_dots rules) as [dots|] eqn:U; [subst u; apply undefined_dots_in, U|].
      destruct H as (h & H & ->). eapply undefined_in, H.
Qed.
Lemma main_in input spans out : main_trace lower upper sort m input spans = Ok out -> Forall A (outputs out).
Proof.
  intros E. unfold outputs. apply Forall_flat_map. apply Forall_forall. intros t I.
  destruct (is_sign t) eqn:S.
  - destruct (in_split _ _ I) as (a & b & Eo).
    destruct (C26_signs_come_from_the_table _ _ _ _ _ _ lower upper sort m B DR SR input spans out a t b E Eo S) as (_ & r & Hr & O & _).
    destruct (C56_signs _ _ _ _ _ _ lower upper sort m B DR SR input spans out t r E I S O) as (_ & Q & _). exact (says_in r _ _ Hr Q).
  - apply in_split in I. destruct I as (a & b & Eo).
    destruct (pass_traced _ _ _ _ _ _ lower upper sort m B DR input spans out SR E) as (sp & em & caps & ind & lim & ts & T).
    destruct (text_piece_facts _ _ _ _ _ _ _ _ _ _ B _ _ _ _ _ _ _ _ _ _ _ _ T Eo S) as (ts1 & h & u & R & H & Et & _).
    assert (OU : r_output t = r_output u) by (rewrite Et; destruct h; reflexivity). rewrite OU. eapply best_in, H.
Qed.
End Main.

(** ** The passes after it *)
Section Passes.
Variable A : char -> Prop.
Variable is_alphabetic : char -> bool.
Variable compat : bool.
Variable table : list rule.
Lemma replaced_in x action replaced : context_compile is_alphabetic compat table = TOk x -> pass_writes A table action -> Forall A replaced ->
  Forall A (flat_map (action_output (table_swap x) replaced) action).
Proof.
  intros EX (S & D & N) F. apply Forall_flat_map. apply Forall_forall. intros i I. destruct i; cbn [action_output]; try constructor; eauto.
  unfold swapped. apply Forall_flat_map. rewrite Forall_forall in F |- *. intros c Ic.
  destruct (table_swap x name c) as [s|] eqn:E; [|constructor; auto].
  apply (N name c s I), (C68_swap_class is_alphabetic compat table x name c s EX), E.
Qed.
Lemma multipass_in lower rules d st x ps text out : context_compile is_alphabetic compat table = TOk x ->
  (forall r test action, In r rules -> pass_rule r test action -> pass_writes A table action) ->
  multipass_compile rules d st x = TOk ps -> multipass_trace lower ps st text = Ok out -> Forall A text -> Forall A (outputs out).
Proof.
  intros EX PW C T F. unfold outputs. apply Forall_flat_map, Forall_forall. intros t I.
  destruct (C03_pass_covers_input lower rules d st x ps text out C T) as [Cov _].
  assert (FI : Forall A (r_input t)).
  { rewrite <- Cov in F. apply Forall_flat_map in F. rewrite Forall_forall in F. exact (F t I). }
  apply in_split in I. destruct I as (a & b & E).
  destruct (C06_passes_choose lower rules d st x ps text out C T) as [H _]. specialize (H a t b E).
  assert (G : forall a1 u, finds lower text ps a1 u -> r_input t = r_input u -> r_output t = r_output u -> Forall A (r_output t)).
  { intros a1 u (e & p & _ & Hp & Fd) Ei Eo. destruct (pattern_of rules d st x ps C p Hp) as (r & test & action & Hr & K & TP & CI).
    destruct (rule_offer _ _ _ _ _ _ _ _ _ _ _ CI Fd) as (_ & X2 & _). rewrite Eo, X2, <- Ei. apply replaced_in; [exact EX| |exact FI]. eapply PW; eauto. }
  destruct H as [(_ & [((b0 & c & y & v & Ea & _ & Fd & _ & Eo & Et) & _)|(_ & l1 & p & l2 & Ep & ((e & q & He & Hq & Fd) & Z & _) & _)])|(_ & c & r & _ & ->)].
  - apply (G b0 v Fd); rewrite Et; reflexivity.
  - apply (G a t); auto. exists e, q. split; [exact He|]. split; [|exact Fd]. destruct Hq as [<-|[]]. rewrite Ep. apply in_or_app. right. left. reflexivity.
  - exact FI.
Qed.

Variable read_dictionary : str -> tres hyph.
Variable lower upper : char -> list char.
Variable sort : list event -> res (list event).
Hypothesis DR : dictionaries_read read_dictionary.
Hypothesis SR : sort_rearranges sort.
Hypothesis FB : forall c u, fallback c = Ok u -> A u.
Hypothesis W : writes_only A table.
Notation translate := (pipeline_translate_with lower upper sort).
Lemma post_in k s input o out : k <> CorrectPass -> kind s = k -> pass_built is_alphabetic compat read_dictionary Forward table s ->
  (k = MainPass \/ Forall A input) -> transformation_translate_with lower upper sort s input o = Ok out -> Forall A out.
Proof.
  intros NC Kk Bs FI. rewrite step_translate.
  assert (P : forall st ps x, k <> MainPass -> st = stage_of k -> context_compile is_alphabetic compat table = TOk x ->
    multipass_compile (filter (opcode_of k) (filter (is_direction Forward) table)) Forward st x = TOk ps ->
    (do t <- multipass_trace lower ps st input; Ok (outputs t)) = Ok out -> Forall A out).
  { intros st ps x NM _ EX C. destruct (multipass_trace lower ps st input) as [t| |] eqn:T; try discriminate. cbn [bind]. intros [= <-].
    eapply (multipass_in lower _ Forward st x ps input t EX); [|exact C|exact T|destruct FI; [congruence|assumption]].
    intros r test action I (kk & K). apply filter_In in I. destruct I as [I O]. destruct (W r I) as [_ Wr].
    destruct K as [-> |[-> |[-> | ->]]]; try exact Wr. destruct k; try discriminate O. congruence. }
  destruct s as [st ps|m|st ps]; cbn [pass_built] in Bs.
  - destruct Bs as (x & EX & Es & C). cbn in Kk. congruence.
  - destruct Bs as (x & EX & Bm). cbn [transformation_trace]. destruct (main_trace lower upper sort m input (o_emphasis o)) as [t| |] eqn:T; try discriminate.
    cbn [bind]. intros [= <-].
    eapply (main_in A FB is_alphabetic compat read_dictionary x _ lower upper sort m EX Bm DR SR); [| |exact T].
    + intros r I. apply W, I.
    + intros test action kk I. apply (W _ I).
  - destruct Bs as (x & EX & Es & C). intros E. rewrite Kk in *. eapply (P st ps x); eauto. intros ->. destruct st; discriminate Kk.
Qed.
Lemma posts_in t : Forall (pass_built is_alphabetic compat read_dictionary Forward table) t -> Forall (fun s => kind s <> CorrectPass /\ kind s <> MainPass) t ->
  forall input o out, Forall A input -> translate t input o = Ok out -> Forall A out.
Proof.
  induction 1 as [|s t Bs Bt IH]; intros Ks input o out F E; cbn [pipeline_translate_with] in E; [injection E as <-; exact F|].
  inversion Ks as [|s0 t0 [K1 K2] Kt]; subst. destruct (transformation_translate_with lower upper sort s input o) as [mid| |] eqn:Em; try discriminate.
  cbn [bind] in E. eapply IH; [exact Kt| |exact E]. eapply post_in; [exact K1|reflexivity|exact Bs|right; exact F|exact Em].
Qed.
Variable order1 order2 : list str -> list str.
Hypothesis O1 : permuting order1.
Hypothesis O2 : permuting order2.

(** What the translator writes comes from the dots operands of the rules and from the actions of
    context, pass2, pass3 and pass4 - whatever the text is.  [A] is any set of characters
    that has all of these, and the cells for the characters of a number [\x1234]. *)
Theorem C69_only_what_the_rules_write : forall t input o out,
  pipeline_compile is_alphabetic compat read_dictionary order1 order2 table Forward = TOk t ->
  translate t input o = Ok out -> Forall A out.
Proof.
  intros t input o out E T. destruct (compile_built is_alphabetic compat read_dictionary order1 order2 table Forward t O1 O2 E) as [Bt K].
  assert (R : forall t' i, Forall (pass_built is_alphabetic compat read_dictionary Forward table) t' ->
     map kind t' = MainPass :: filter (present table Forward) [Pass2; Pass3; Pass4] -> translate t' i o = Ok out -> Forall A out).
  { intros [|s t'] i B' K' T'; [discriminate|]. cbn [map] in K'. remember (filter (present table Forward) [Pass2; Pass3; Pass4]) as later eqn:El. injection K' as K1 K2. subst later. inversion B' as [|s0 t0 Bs Bt']; subst.
    cbn [pipeline_translate_with] in T'. destruct (transformation_translate_with lower upper sort s i o) as [mid| |] eqn:Em; try discriminate. cbn [bind] in T'.
    eapply posts_in; [exact Bt'| | |exact T'].
    - apply Forall_forall. intros s' I. assert (X : In (kind s') (filter (present table Forward) [Pass2; Pass3; Pass4])) by (rewrite <- K2; apply in_map, I).
      apply filter_In in X. destruct X as [[<-|[<-|[<-|[]]]] _]; split; discriminate.
    - eapply (post_in MainPass s i o mid); [discriminate|exact K1|exact Bs|left; reflexivity|exact Em]. }
  cbn [pass_order filter] in K. change (present table Forward MainPass) with true in K. cbn iota in K.
  destruct (present table Forward CorrectPass); [|exact (R t input Bt K T)].
  destruct t as [|s t]; [discriminate|]. cbn [map] in K. match type of K with _ = _ :: ?l => assert (K2 : map kind t = l) by congruence end. clear K. inversion Bt as [|s0 t0 Bs Bt']; subst.
  cbn [pipeline_translate_with] in T. destruct (transformation_translate_with lower upper sort s input o) as [mid| |] eqn:Em; try discriminate. cbn [bind] in T.
  exact (R t mid Bt' K2 T).
Qed.
End Passes.
Print Assumptions C69_only_what_the_rules_write.

(** ** Tables as they are read *)
Definition in_braille (u : N) : bool := ((N.leb 0x2800 u && N.leb u 0x28FF) || (N.leb 0xF0000 u && N.leb u 0xF7FFF))%bool.
Lemma in_braille_ok u : in_braille u = true -> braille_char u.
Proof. unfold in_braille, braille_char. rewrite Bool.orb_true_iff, !Bool.andb_true_iff, !N.leb_le. tauto. Qed.
Lemma sweep_braille : forallb (fun c => match to_unicode c with Ok u => in_braille u | _ => true end) (powerset all_dots) = true.
Proof. vm_compute. reflexivity. Qed.
Lemma cell_braille t u : spells_cell t u -> braille_char u.
Proof.
  intros (ds & _ & _ & E). apply in_braille_ok.
  pose proof (proj1 (forallb_forall _ _) sweep_braille (cell_of ds) (filter_powerset _ _)) as H. cbn beta in H. rewrite E in H. exact H.
Qed.
Lemma cell_list_braille parts us : Forall2 spells_cell parts us -> Forall braille_char us.
Proof. induction 1; constructor; auto. eapply cell_braille; eauto. Qed.
Lemma cells_braille t us : spells_cells t us -> Forall braille_char us.
Proof. intros (parts & _ & _ & F). eapply cell_list_braille, F. Qed.
Lemma fallback_braille c u : fallback c = Ok u -> braille_char u.
Proof.
  unfold fallback. destruct (assoc c nabcc) as [g|] eqn:E; [|discriminate]. apply assoc_in in E. intros T. apply in_braille_ok.
  assert (S : forallb (fun p => match to_unicode (snd p) with Ok u => in_braille u | _ => true end) nabcc = true) by (vm_compute; reflexivity).
  pose proof (proj1 (forallb_forall _ _) S _ E) as H. cbn [snd] in H. rewrite T in H. exact H.
Qed.
Lemma reads_braille i ts rest : reads i ts rest -> Forall braille_char (item_cells i) /\ (forall l s, i = Actions l -> In (ActDots s) l -> Forall braille_char s).
Proof.
  intros R. destruct R; cbn [item_cells]; (split; [try constructor|intros l0 s0 Q; try discriminate Q]).
  all: try (eapply cells_braille; eassumption); try (eapply cell_list_braille; eassumption); try (eapply cell_braille; eassumption); try constructor.
  - match goal with F : Forall2 spells_cells ?p ?u |- _ => revert F; clear; revert u; induction p as [|q parts' IH]; intros uss F; inversion F; subst; cbn [concat]; [constructor|] end.
    apply Forall_app. split; [eapply cells_braille; eassumption|apply IH; assumption].
  - injection Q as <-. match goal with T : actions_text _ ?l _ |- _ => revert T; clear; intros T; induction T as [|s1 a1 s2 l1 r1 T1 T2 IH] end; [intros []|].
    intros [->|I]; [inversion T1; subst; eapply cells_braille; eassumption|]. apply IH, I.
Qed.
Lemma all_braille items ts rest : reads_all items ts rest ->
  Forall braille_char (flat_map item_cells items) /\ (forall l s, In (Actions l) items -> In (ActDots s) l -> Forall braille_char s).
Proof.
  induction 1 as [|i l ts mid rest R _ [IH1 IH2]]; [split; [constructor|intros l s []]|]. destruct (reads_braille _ _ _ R) as [H1 H2].
  split; [cbn [flat_map]; apply Forall_app; auto|]. intros l0 s [->|I]; [apply (H2 l0 s eq_refl)|eauto].
Qed.
Lemma rule_braille r : from_table r -> Forall braille_char (rule_cells r) /\
  (forall n items l s, spelling r = Some (n, items) -> In (Actions l) items -> In (ActDots s) l -> Forall braille_char s).
Proof.
  intros [(ts & rest & _ & k & w & m & name & items & operands & _ & _ & _ & Sp & R & _)|(path & ->)].
  - destruct (all_braille _ _ _ R) as [H1 H2]. unfold rule_cells. rewrite Sp. split; [exact H1|]. intros n items' l s [= <- <-]. apply H2.
  - split; [constructor|discriminate].
Qed.
Lemma table_braille table : Forall from_table table -> braille_actions table -> writes_only braille_char table.
Proof.
  intros FT BA r I. pose proof I as I0. apply filter_In in I0. destruct I0 as [Ir _]. rewrite Forall_forall in FT. destruct (rule_braille r (FT r Ir)) as [H1 H2].
  split; [exact H1|]. specialize (BA r I).
  assert (P : forall action, (forall s, In (ActDots s) action -> Forall braille_char s) ->
    (forall s, In (ActString s) action -> Forall braille_char s) /\ (forall name chars replacement, In (ActSwapClass name) action -> ~ In (RSwapcc name chars replacement) table) ->
    pass_writes braille_char table action).
  { intros action D [S N]. split; [exact S|]. split; [exact D|]. intros name c s J (a & q & b & -> & _ & Nq & (n & cs & ss & i & Q & _ & Hs & _)).
    assert (Iq : In q (a ++ q :: b)) by (apply in_app_iff; right; left; reflexivity).
    destruct (rule_braille q (FT q Iq)) as [Hq _]. unfold swap_name in Nq. rewrite Q in Nq. cbn in Nq. injection Nq as ->.
    destruct q; try discriminate Q; cbn in Q; injection Q as -> -> <-.
    - unfold rule_cells in Hq. cbn in Hq. rewrite app_nil_r in Hq. apply nth_error_In in Hs. rewrite Forall_forall in Hq |- *. intros y Iy. apply Hq, in_concat. eauto.
    - unfold rule_cells in Hq. cbn in Hq. rewrite app_nil_r in Hq. apply Forall_app in Hq. destruct Hq as [_ Hq].
      apply nth_error_In in Hs. rewrite Forall_forall in Hq |- *. intros y Iy. apply Hq, in_concat. eauto.
    - destruct (N _ _ _ J Iq). }
  destruct r; try exact Logic.I; try (apply P; [|exact BA]; intros s J; eapply (H2 _ _ action s eq_refl); [right; left; reflexivity|exact J]).
  destruct BA as (S & R & N). split; [exact S|]. split; [|split; [exact N|exact R]]. intros s J. eapply (H2 _ _ action s eq_refl); [right; left; reflexivity|exact J].
Qed.
(** Table files: whatever text is translated, only braille comes out - if no context rule
    writes print or keeps its text, and no later pass writes print. *)
Section Read.
Variable ws is_alphabetic : char -> bool.
Variable compat : bool.
Variable order1 order2 : list str -> list str.
Variable fs : file_system.
Variable trim : str -> str.
Variable is_utf8_name is_latin1_name : str -> bool.
Variable parse_usize : str -> option nat.
Variable lower upper : char -> list char.
Variable sort : list event -> res (list event).
Hypothesis O1 : permuting order1.
Hypothesis O2 : permuting order2.
Hypothesis SR : sort_rearranges sort.
Notation read := (dictionary fs trim is_utf8_name is_latin1_name parse_usize).
Lemma reads_dictionaries : dictionaries_read read.
Proof.
  intros path h. unfold dictionary. destruct (read_to_string fs path) as [text|]; [|discriminate].
  destruct (hyph_parse trim is_utf8_name is_latin1_name parse_usize (lines text)) as [e|h'] eqn:E; [discriminate|]. intros [= <-].
  exists trim, is_utf8_name, is_latin1_name, parse_usize, (lines text). exact E.
Qed.
Lemma compiled_braille rules t input o out : Forall from_table (map a_rule rules) -> braille_actions (map a_rule rules) ->
  compiled is_alphabetic compat order1 order2 fs trim is_utf8_name is_latin1_name parse_usize rules Forward = Built t ->
  pipeline_translate_with lower upper sort t input o = Ok out -> Forall braille_char out.
Proof.
  intros FT BA. unfold compiled. destruct (pipeline_compile _ _ _ _ _ _ _) as [t'| |] eqn:E; try discriminate. intros [= <-] T.
  eapply (C69_only_what_the_rules_write braille_char is_alphabetic compat (map a_rule rules) read lower upper sort reads_dictionaries SR fallback_braille
    (table_braille _ FT BA) order1 order2 O1 O2 t' input o out E T).
Qed.
Theorem C69_tables_write_braille : forall files rules t input o out,
  tables_expanded ws fs files = Some (inl rules) -> braille_actions (map a_rule rules) ->
  translator_new ws is_alphabetic compat order1 order2 fs trim is_utf8_name is_latin1_name parse_usize files Forward = Some (Built t) ->
  pipeline_translate_with lower upper sort t input o = Ok out -> Forall braille_char out.
Proof.
  intros files rules t input o out E BA. unfold translator_new. rewrite E. intros [= C]. eapply compiled_braille; [eapply tables_from_table, E|exact BA|exact C].
Qed.
Theorem C69_table_text_writes_braille : forall text rules t input o out,
  source_rules ws text = inl rules -> braille_actions (map a_rule rules) ->
  translator_from_source ws is_alphabetic compat order1 order2 fs trim is_utf8_name is_latin1_name parse_usize text Forward = Built t ->
  pipeline_translate_with lower upper sort t input o = Ok out -> Forall braille_char out.
Proof.
  intros text rules t input o out E BA. unfold translator_from_source. rewrite E. intros C. eapply compiled_braille; [|exact BA|exact C].
  unfold source_rules, table_of_text in E. destruct (parse_table ws text) as [rs|es] eqn:P; [|discriminate].
  destruct (existsb is_include _); [discriminate|]. injection E as <-. rewrite map_map. exact (parsed_from_table _ _ _ P).
Qed.
End Read.
Print Assumptions C69_tables_write_braille.
Print Assumptions C69_table_text_writes_braille.

(** ** Examples *)
Definition ex_read (text : list str) : list rule := match source_rules ex_ws (ex_lines text) with inl rules => map a_rule rules | inr _ => [] end.
Definition ex_source (text : list str) (input : str) : option (res str) :=
  match translator_from_source ex_ws ex_alpha true (fun l => l) (fun l => l) (ex_fs []) (fun s => s) (fun _ => false) (fun _ => false) (fun _ => None)
          (ex_lines text) Forward with
  | Built t => Some (pipeline_translate_with ex_lower ex_upper ex_sort t input options_default)
  | _ => None
  end.
(** corrections may write print, and a class from cells to cells may be swapped *)
Definition ex_cells : list str :=
  [lit "letter a 1"; lit "letter b 12"; lit "letter c 14"; lit "always abc 1-9a-3"; lit "context [""bb""] @126"; lit "correct ""xx"" ""ab""";
   lit "swapdd sw 1,12 14,1-1"; lit "pass2 @14[@1] %sw"].
Example C69_example :
  ex_source ex_cells (lit "xxcbbca?") = Some (Ok (bs [1]%N ++ [0xF0300%N] ++ bs [4; 35; 9; 9]%N ++
     bs [51; 45; 18; 11]%N)) /\ braille_actions (ex_read ex_cells).
Proof.
  split; [vm_compute; reflexivity|].
  intros r I. remember (ex_read ex_cells) as table eqn:Et. vm_compute in Et. subst table.
  repeat (destruct I as [<-|I]; [try exact Logic.I; cbn; repeat split; intros; intuition discriminate|]). destruct I.
Qed.
(** That only braille comes out whatever the table is, is false: pass2 can write print. *)
Theorem C69_any_table_refuted :
  ~ forall text input out, ex_source text input = Some (Ok out) -> Forall braille_char out.
Proof.
  intros H. assert (E : ex_source [lit "letter a 1"; lit "pass2 @1 ""x"""] (lit "a") = Some (Ok (lit "x"))) by (vm_compute; reflexivity).
  pose proof (H _ _ _ E) as F. apply Forall_inv in F. destruct F as [[F _]|[F _]]; vm_compute in F; apply F; reflexivity.
Qed.
(** A context rule that keeps its text writes print, too. *)
Example C69_example_kept : ex_source [lit "letter a 1"; lit "context ""a"" *"] (lit "ab") = ex_source [lit "letter a 1"; lit "context ""a"" ""a"""] (lit "ab") /\
  exists out, ex_source [lit "letter a 1"; lit "context ""a"" *"] (lit "ab") = Some (Ok (lit "a" ++ out)).
Proof. split; [vm_compute; reflexivity|]. eexists. vm_compute. reflexivity. Qed.
Print Assumptions C69_any_table_refuted.
