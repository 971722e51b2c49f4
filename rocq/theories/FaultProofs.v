(** Compiling a table ends with the first problem of FaultSpec.v. *)
From Coq Require Import List.
From Verif Require Import Base BaseProofs RuleModel TranslationModel TableModel TableProofs RegexpModel PatternModel TrieModel TrieProofs
  BrailleModel BrailleProofs HyphenationModel OperandModel OperandProofs OperandProofs2 UnescapeSpec UnescapeProofs OperandSpec OperandText LoopModel CompileModel
  ConstraintModel IndicatorModel PipelineModel MainPass LineSpec PipelineSpec FaultSpec NegationProofs.

(** ** Outcomes *)
Definition agrees {A} (t : tres A) (F : fault -> Prop) : Prop :=
  match t with
  | TOk _ => forall f, ~ F f
  | TErr e => forall f, F f <-> f = Error e
  | TPanic => forall f, F f <-> f = Crash
  end.
Lemma agrees_iff {A} (t : tres A) F G : (forall f, F f <-> G f) -> agrees t F -> agrees t G.
Proof. destruct t; cbn [agrees]; intros H Q f; [rewrite <- H; apply Q| |]; rewrite <- H; apply Q. Qed.
Lemma agrees_bind {A B} (t : tres A) (k : A -> tres B) F G : agrees t F -> (forall a, t = TOk a -> agrees (k a) G) ->
  agrees (tbind t k) (fun f => F f \/ (forall g, ~ F g) /\ G f).
Proof.
  destruct t as [a|e|]; cbn [agrees tbind].
  - intros N K. specialize (K a eq_refl). destruct (k a); cbn [agrees] in *; intros f.
    + intros [H|[_ H]]; [apply (N f H)|apply (K f H)].
    + rewrite <- K. split; [intros [H|[_ H]]; [destruct (N f H)|exact H]|auto].
    + rewrite <- K. split; [intros [H|[_ H]]; [destruct (N f H)|exact H]|auto].
  - intros E _ f. rewrite E. split; [intros [H|[N _]]; [exact H|destruct (N (Error e)); apply E; reflexivity]|auto].
  - intros E _ f. rewrite E. split; [intros [H|[N _]]; [exact H|destruct (N Crash); apply E; reflexivity]|auto].
Qed.
Lemma agrees_ok {A} (t : tres A) F : (exists a, t = TOk a) -> (forall f, ~ F f) -> agrees t F.
Proof. intros (a & ->) N. exact N. Qed.

Definition first_in {A} (P : A -> fault -> Prop) (l : list A) (f : fault) : Prop :=
  exists before a after, l = before ++ a :: after /\ P a f /\ forall b g, In b before -> ~ P b g.
Lemma first_none {A} (P : A -> fault -> Prop) l : (forall f, ~ first_in P l f) <-> forall a f, In a l -> ~ P a f.
Proof.
  split.
  - induction l as [|x l IH]; intros N a f I; [destruct I|].
    assert (Nx : forall f, ~ P x f) by (intros g H; apply (N g); exists [], x, l; split; [reflexivity|split; [exact H|intros b h []]]).
    destruct I as [->|I]; [apply Nx|]. apply IH; [|exact I]. intros g (before & y & after & -> & H & B). apply (N g).
    exists (x :: before), y, after. split; [reflexivity|]. split; [exact H|]. intros b h [<-|J]; [apply Nx|apply B, J].
  - intros N f (before & a & after & -> & H & _). apply (N a f); [apply in_elt|exact H].
Qed.
Lemma first_cons {A} (P : A -> fault -> Prop) x l f : first_in P (x :: l) f <-> P x f \/ (forall g, ~ P x g) /\ first_in P l f.
Proof.
  split.
  - intros (before & a & after & E & H & B). destruct before as [|y before]; cbn [app] in E; injection E as <- ->; [left; exact H|].
    right. split; [intros g; apply B; left; reflexivity|]. exists before, a, after. split; [reflexivity|]. split; [exact H|]. intros b g I. apply B. right. exact I.
  - intros [H|[N (before & a & after & -> & H & B)]].
    + exists [], x, l. split; [reflexivity|]. split; [exact H|intros b g []].
    + exists (x :: before), a, after. split; [reflexivity|]. split; [exact H|]. intros b g [<-|I]; [apply N|apply B, I].
Qed.
Lemma first_app {A} (P : A -> fault -> Prop) l1 l2 f :
  first_in P (l1 ++ l2) f <-> first_in P l1 f \/ (forall g, ~ first_in P l1 g) /\ first_in P l2 f.
Proof.
  induction l1 as [|x l IH]; cbn [app].
  - split; [intros H; right; split; [intros g (b & a & r & E & _); destruct b; discriminate|exact H]|].
    intros [(b & a & r & E & _)|[_ H]]; [destruct b; discriminate|exact H].
  - rewrite first_cons, IH, first_cons. split.
    + intros [H|[N [H|[N' H]]]]; [auto|auto|]. right. split; [|exact H]. intros g Q. apply first_cons in Q. destruct Q as [Q|[_ Q]]; [apply (N g Q)|apply (N' g Q)].
    + intros [[H|[N H]]|[N H]]; [auto|auto|]. right. split; [intros g Q; apply (N g), first_cons; left; exact Q|]. right. split; [|exact H].
      intros g Q. apply (N g), first_cons. right. split; [|exact Q]. intros h Q'. apply (N h), first_cons. left. exact Q'.
Qed.
Lemma first_map {A B} (P : B -> fault -> Prop) (h : A -> B) l f : first_in P (map h l) f <-> first_in (fun a => P (h a)) l f.
Proof.
  induction l as [|x l IH]; cbn [map].
  - split; intros (b & a & r & E & _); destruct b; discriminate.
  - rewrite !first_cons, IH. reflexivity.
Qed.
Lemma first_iff {A} (P Q : A -> fault -> Prop) l f : (forall a g, In a l -> (P a g <-> Q a g)) -> first_in P l f <-> first_in Q l f.
Proof.
  intros H. split; intros (b & a & r & -> & X & N); exists b, a, r; (split; [reflexivity|]); split.
  - apply H; [apply in_elt|exact X].
  - intros y g I Y. apply (N y g I). apply H; [apply in_app_iff; auto|exact Y].
  - apply H; [apply in_elt|exact X].
  - intros y g I Y. apply (N y g I). apply H; [apply in_app_iff; auto|exact Y].
Qed.
Lemma agrees_fold {A B} (step : B -> A -> tres B) (P : A -> fault -> Prop) (go : B -> list A -> tres B) :
  (forall b, go b [] = TOk b) -> (forall b a l, go b (a :: l) = tbind (step b a) (fun b' => go b' l)) ->
  forall l, (forall b a, In a l -> agrees (step b a) (P a)) -> forall b, agrees (go b l) (first_in P l).
Proof.
  intros G0 G1. induction l as [|a l IH]; intros H b.
  - rewrite G0. intros f (b' & a & r & E & _). destruct b'; discriminate.
  - rewrite G1. apply (agrees_iff _ _ _ (fun f => iff_sym (first_cons P a l f))). apply agrees_bind; [apply H; left; reflexivity|].
    intros b' _. apply IH. intros b'' a' I. apply H. right. exact I.
Qed.

(** ** The operands of rules that are read from tables *)
Definition good_item (i : item) : Prop :=
  match i with
  | Text s | Cells s | Dots (Explicit s) => s <> []
  | Tests l => exists t, parse_tests t = Good l []
  | LineSpec.Pre l => exists t r, t <> [] /\ match_operand SPre t = Good l r
  | Post l => exists t r, t <> [] /\ match_operand SPost t = Good l r
  | _ => True
  end.
Lemma cells_nonempty t us : spells_cells t us -> us <> [].
Proof. intros (parts & N & _ & F) ->. inversion F. congruence. Qed.
Lemma reads_good i ts rest : reads i ts rest -> Forall (fun t => t <> []) ts -> good_item i /\ Forall (fun t => t <> []) rest.
Proof.
  intros R F. destruct R; inversion F; subst; (split; [cbn [good_item]|try assumption; constructor]);
    try exact Coq.Init.Logic.I; try (eapply cells_nonempty; eassumption); try congruence.
  - eapply escaped_facts; eassumption.
  - eexists. apply parse_tests_spec. split; eassumption.
  - destruct (proj2 (match_operand_spec SPre t l)) as (r & X); [eauto|]. exists t, r. auto.
  - destruct (proj2 (match_operand_spec SPost t l)) as (r & X); [eauto|]. exists t, r. auto.
Qed.
Lemma reads_all_good items ts rest : reads_all items ts rest -> Forall (fun t => t <> []) ts -> Forall good_item items.
Proof. induction 1; intros F; [constructor|]. destruct (reads_good _ _ _ H F). constructor; auto. Qed.
Lemma operands_good r name items : from_table r -> spelling r = Some (name, items) -> Forall good_item items.
Proof.
  intros [(ts & rest & F & k & w & m & name' & items' & operands & -> & _ & _ & Sp & R & _)|(path & ->)] E; [|discriminate].
  rewrite E in Sp. injection Sp as <- <-. eapply reads_all_good; [exact R|].
  apply Forall_app in F. destruct F as [_ F]. apply Forall_app in F. destruct F as [_ F]. apply Forall_app in F. destruct F as [_ F]. inversion F. assumption.
Qed.

(** ** Definitions are not empty, and bases are defined *)
Definition full_defs (ds : chardefs) : Prop := forall c s, defs_get ds c = Some s -> s <> [].
Lemma defs_insert_full compat ds c s : full_defs ds -> s <> [] -> full_defs (defs_insert compat ds c s).
Proof.
  unfold full_defs, defs_insert, defs_get. intros F N c' s'. assert (X : assoc c' ((c, s) :: ds) = Some s' -> s' <> []).
  { cbn [assoc]. destruct (N.eqb c' c); [intros [= <-]; exact N|apply F]. }
  destruct compat; [|exact X]. destruct (assoc c ds); [apply F|exact X].
Qed.
Lemma defs_insert_keeps compat ds c s c' : defs_get ds c' <> None -> defs_get (defs_insert compat ds c s) c' <> None.
Proof.
  unfold defs_get, defs_insert. intros H. assert (X : assoc c' ((c, s) :: ds) <> None) by (cbn [assoc]; destruct (N.eqb c' c); [discriminate|exact H]).
  destruct compat; [destruct (assoc c ds)|]; assumption.
Qed.
Lemma step1_full alph compat x r : from_table r -> full_defs (x_defs x) -> full_defs (x_defs (context_step1 alph compat x r)).
Proof.
  intros T F. destruct r; cbn [context_step1]; try exact F;
    try (cbn [define x_defs]; apply defs_insert_full; [exact F|];
         pose proof (operands_good _ _ _ T eq_refl) as G; inversion_clear G as [|? ? _ G1]; inversion_clear G1 as [|? ? G2 _]; exact G2).
  destruct (forallb alph chars); exact F.
Qed.
Lemma fold1_full alph compat l : Forall from_table l -> forall x, full_defs (x_defs x) -> full_defs (x_defs (fold_left (context_step1 alph compat) l x)).
Proof. induction 1 as [|r l T _ IH]; intros x F; [exact F|]. cbn [fold_left]. apply IH, step1_full; assumption. Qed.
Lemma step2_full compat x r x' : context_step2 compat x r = TOk x' -> full_defs (x_defs x) -> full_defs (x_defs x').
Proof.
  destruct r; cbn [context_step2]; try (intros [= <-] F; exact F).
  destruct (defs_get (x_defs x) base) as [t|] eqn:E.
  - intros [= <-] F. cbn [x_defs]. apply defs_insert_full; [exact F|]. eapply F, E.
  - destruct compat; [|discriminate]. intros [= <-] F. exact F.
Qed.
Lemma context_full alph compat rules x : Forall from_table rules -> context_compile alph compat rules = TOk x -> full_defs (x_defs x).
Proof.
  intros T. unfold context_compile. assert (F : full_defs (x_defs (fold_left (context_step1 alph compat) rules context_empty))).
  { apply fold1_full; [exact T|]. intros c s. discriminate. }
  revert F. generalize (fold_left (context_step1 alph compat) rules context_empty). clear T. induction rules as [|r l IH]; cbn [context_fold2]; intros y F.
  - intros [= <-]. exact F.
  - destruct (context_step2 compat y r) as [y'| |] eqn:E; try discriminate. cbn [tbind]. apply IH. eapply step2_full; eassumption.
Qed.
Lemma context_bases alph rules x n dv b : context_compile alph false rules = TOk x -> In (RBase n dv b) rules -> defs_get (x_defs x) b <> None.
Proof.
  unfold context_compile. generalize (fold_left (context_step1 alph false) rules context_empty).
  assert (KP : forall l y y', context_fold2 false y l = TOk y' -> defs_get (x_defs y) b <> None -> defs_get (x_defs y') b <> None).
  { induction l as [|r l IH]; cbn [context_fold2]; intros y y'; [intros [= <-]; auto|].
    destruct (context_step2 false y r) as [y1| |] eqn:E; try discriminate. cbn [tbind]. intros E' D. apply (IH _ _ E').
    destruct r; cbn [context_step2] in E; try (injection E as <-; exact D).
    destruct (defs_get (x_defs y) base); [|discriminate]. injection E as <-. cbn [x_defs]. apply (defs_insert_keeps false), D. }
  induction rules as [|r l IH]; cbn [context_fold2]; intros y E I; [destruct I|].
  destruct (context_step2 false y r) as [y1| |] eqn:E1; try discriminate. cbn [tbind] in E. destruct I as [->|I]; [|eapply IH; eassumption].
  apply (KP _ _ _ E). cbn [context_step2] in E1. destruct (defs_get (x_defs y) b) as [t|] eqn:Eb; [|discriminate]. injection E1 as <-. cbn [x_defs].
  apply (defs_insert_keeps false). rewrite Eb. discriminate.
Qed.

(** ** Texts *)
Lemma implicit_agrees x chars : agrees (dots_of x Implicit chars)
  (fun f => exists before c after, chars = before ++ c :: after /\ defs_get (x_defs x) c = None /\
     (forall b, In b before -> defs_get (x_defs x) b <> None) /\ f = Error (ImplicitCharacterNotDefined c)).
Proof.
  unfold dots_of, braille_to_unicode. destruct (resolve_implicit (x_defs x) chars) as [t|e|] eqn:E; cbn [agrees].
  - intros f (a & c & b & -> & N & B & _).
    assert (Q : resolve_implicit (x_defs x) (a ++ c :: b) = TErr (ImplicitCharacterNotDefined c)).
    { apply resolve_implicit_err. exists a, c, b. auto. }
    congruence.
  - intros f. split.
    + intros (a & c & b & -> & N & B & ->). f_equal.
      assert (Q : resolve_implicit (x_defs x) (a ++ c :: b) = TErr (ImplicitCharacterNotDefined c)).
      { apply resolve_implicit_err. exists a, c, b. auto. }
      congruence.
    + intros ->. apply resolve_implicit_err in E. destruct E as (a & c & b & -> & -> & N & B). exists a, c, b. auto.
  - destruct (resolve_implicit_no_panic _ _ E).
Qed.
Lemma dots_nonempty x b chars t : full_defs (x_defs x) -> chars <> [] -> match b with Explicit s => s <> [] | Implicit => True end ->
  dots_of x b chars = TOk t -> t <> [].
Proof.
  intros F N Nb. unfold dots_of, braille_to_unicode. destruct b as [|s]; [|intros [= <-]; exact Nb].
  intros E. apply resolve_implicit_ok in E. destruct E as [|c s r t E _]; [congruence|]. specialize (F c s E). intros Q. apply app_eq_nil in Q. tauto.
Qed.

(** ** Tests and actions *)
Lemma targets_agrees sw l : agrees (targets_of sw l)
  (fun f => exists before name after, l = before ++ ActSwapClass name :: after /\ swaps_get sw name = None /\
     (forall n, In (ActSwapClass n) before -> swaps_get sw n <> None) /\ f = Error (SwapClassNotDefined name)).
Proof.
  induction l as [|a l IH]; cbn [targets_of].
  - intros f (b & n & r & E & _). destruct b; discriminate.
  - set (F := fun f => exists name, a = ActSwapClass name /\ swaps_get sw name = None /\ f = Error (SwapClassNotDefined name)).
    apply (agrees_iff _ (fun f => F f \/ (forall g, ~ F g) /\ exists before name after, l = before ++ ActSwapClass name :: after /\ swaps_get sw name = None /\
       (forall n, In (ActSwapClass n) before -> swaps_get sw n <> None) /\ f = Error (SwapClassNotDefined name))).
    + intros f. split.
      * intros [(name & -> & N & ->)|[Na (b & name & r & -> & N & B & ->)]].
        { exists [], name, l. split; [reflexivity|]. split; [exact N|]. split; [intros n []|reflexivity]. }
        exists (a :: b), name, r. split; [reflexivity|]. split; [exact N|]. split; [|reflexivity]. intros n [->|I]; [|apply B, I].
        intros Q. apply (Na (Error (SwapClassNotDefined n))). exists n. auto.
      * intros (b & name & r & E & N & B & ->). destruct b as [|y b]; cbn [app] in E; injection E as -> ->; [left; exists name; auto|].
        right. split; [|exists b, name, r; split; [reflexivity|]; split; [exact N|]; split; [|reflexivity]; intros n I; apply B; right; exact I].
        intros g (n & -> & Q & _). destruct (B n (or_introl eq_refl) Q).
    + apply agrees_bind.
      * destruct a; cbn [target_of]; try (intros f (n & E & _); discriminate).
        destruct (swaps_get sw name) as [y|] eqn:Es; cbn [agrees].
        -- intros f (n & [= <-] & Q & _). congruence.
        -- intros f. split; [intros (n & [= <-] & _ & ->); reflexivity|intros ->; exists name; auto].
      * intros t _. assert (X : forall (A B : Type) (u : tres A) (k : A -> B) F, agrees u F -> agrees (tbind u (fun a => TOk (k a))) F) by (intros A B u k F0; destruct u; exact (fun h => h)).
        apply X, IH.
Qed.
Lemma targets_known sw l ts : targets_of sw l = TOk ts -> forall n, In (ActSwapClass n) l -> swaps_get sw n <> None.
Proof.
  revert ts. induction l as [|a l IH]; cbn [targets_of]; intros ts E n I; [destruct I|].
  destruct (target_of sw a) as [t| |] eqn:Ea; try discriminate. cbn [tbind] in E.
  destruct (targets_of sw l) as [ts'| |] eqn:El; try discriminate. destruct I as [->|I]; [|eapply IH; [reflexivity|exact I]].
  cbn [target_of] in Ea. destruct (swaps_get sw n); discriminate.
Qed.
Lemma implicit_known x text t : dots_of x Implicit text = TOk t -> forall c, In c text -> defs_get (x_defs x) c <> None.
Proof.
  unfold dots_of, braille_to_unicode. intros E. apply resolve_implicit_ok in E. induction E as [|c s r t E _ IH]; intros c' I; [destruct I|].
  destruct I as [<-|I]; [unfold defs_get; rewrite E; discriminate|apply IH, I].
Qed.
Lemma comparison_part t : has_comparison t = true <-> exists v op n, test_part (TVariable v op n) t /\ op <> OpEq.
Proof.
  induction t as [n|v o y|s|s|a q|n q|t IH|ts IH| |] using test_ind'; cbn [has_comparison];
    try (split; [discriminate|intros (v & op & m & P & _); inversion P]).
  - split.
    + intros H. exists v, o, y. split; [constructor|]. destruct o; discriminate.
    + intros (v' & op & m & P & N). inversion P; subst. destruct o; try reflexivity. congruence.
  - rewrite IH. split; intros (v & op & m & P & N); exists v, op, m; (split; [|exact N]); [constructor; exact P|inversion P; subst; assumption].
  - rewrite existsb_exists. rewrite Forall_forall in IH. split.
    + intros (t & I & H). apply (IH t I) in H. destruct H as (v & op & m & P & N). exists v, op, m. split; [|exact N]. eapply tp_replace; eassumption.
    + intros (v & op & m & P & N). inversion P; subst. exists t. split; [assumption|]. apply IH; [assumption|]. eauto.
Qed.
Lemma comparison_ok ts : existsb has_comparison ts = true <-> compares ts.
Proof.
  rewrite existsb_exists. unfold compares. split.
  - intros (t & I & H). apply comparison_part in H. destruct H as (v & op & m & P & N). exists t, v, op, m. auto.
  - intros (t & v & op & m & I & P & N). exists t. split; [exact I|]. apply comparison_part. eauto.
Qed.

Section Rules.
Variable alph : char -> bool.
Variable compat : bool.
Variable read_dictionary : str -> tres hyph.
Notation faulty := (faulty read_dictionary).

Lemma context_agrees x r tests actions operand st : test_and_action r = Some (tests, actions) -> parse_tests operand = Good tests [] ->
  agrees (context_insert x tests actions r st) (faulty x r).
Proof.
  intros TA P. unfold context_insert.
  apply (agrees_iff _ (fun f => (exists before name after, actions = before ++ ActSwapClass name :: after /\ swaps_get (x_swaps x) name = None /\
     (forall n, In (ActSwapClass n) before -> swaps_get (x_swaps x) n <> None) /\ f = Error (SwapClassNotDefined name)) \/
     (forall g, ~ (exists before name after, actions = before ++ ActSwapClass name :: after /\ swaps_get (x_swaps x) name = None /\
     (forall n, In (ActSwapClass n) before -> swaps_get (x_swaps x) n <> None) /\ g = Error (SwapClassNotDefined name))) /\
     ((forall n, In (ActSwapClass n) actions -> swaps_get (x_swaps x) n <> None) /\ compares tests /\ f = Crash))).
  - intros f. split.
    + intros [(b & name & a & E & N & B & ->)|(_ & K & C & ->)]; [eapply f_swap; eassumption|eapply f_compare; eassumption].
    + intros F. destruct F as [r text b c a S1 S2 D B|pre text post dots k D N|r ts acts b name a TA' E N B|r ts acts TA' K C|path e D|path D]; try discriminate.
      * destruct r; discriminate.
      * rewrite TA in TA'. injection TA' as <- <-. left. exists b, name, a. auto.
      * rewrite TA in TA'. injection TA' as <- <-. right. split; [|auto]. intros g (b & name & a & -> & N & _). apply (K name); [apply in_elt|exact N].
  - apply agrees_bind; [apply targets_agrees|]. intros ts Et. pose proof (targets_known _ _ _ Et) as K.
    pose proof (re_of_instrs_none (stage_classes x st) tests (parse_tests_wf _ _ _ P)) as R. rewrite comparison_ok in R.
    destruct (re_of_instrs _ _) as [re|]; cbn [agrees].
    + intros f (_ & C & _). apply R in C. discriminate.
    + intros f. split; [tauto|]. intros ->. split; [exact K|]. split; [apply R; reflexivity|reflexivity].
Qed.
Lemma match_agrees x pre text post dots k o1 o2 r1 r2 : o1 <> [] -> match_operand SPre o1 = Good pre r1 -> o2 <> [] -> match_operand SPost o2 = Good post r2 ->
  agrees (tdo t <- dots_of x dots text; match_insert (x_chars x) pre text post t (RMatch pre text post dots k)) (faulty x (RMatch pre text post dots k)).
Proof.
  assert (W : forall sd o ps r, o <> [] -> match_operand sd o = Good ps r -> forallb wf_pat ps = true /\ ps <> []).
  { intros sd o ps r N H. unfold match_operand in H. destruct (unescape EscMatchPattern o) as [t r'| |] eqn:E; try discriminate. cbn [pbind] in H.
    pose proof (unescape_rest _ _ _ _ E) as ->. apply unescape_spec in E. destruct (escaped_facts _ _ _ E) as (_ & NE & _). eapply parse_match_wf; [apply NE, N|exact H]. }
  intros N1 P1 N2 P2. destruct (W _ _ _ _ N1 P1) as [W1 X1]. destruct (W _ _ _ _ N2 P2) as [W2 X2].
  set (U := fun f => dots = Implicit /\ exists before c after, text = before ++ c :: after /\ defs_get (x_defs x) c = None /\
     (forall b, In b before -> defs_get (x_defs x) b <> None) /\ f = Error (ImplicitCharacterNotDefined c)).
  set (V := fun f => (dots = Implicit -> forall c, In c text -> defs_get (x_defs x) c <> None) /\ double_negation (pre ++ post) /\ f = Crash).
  apply (agrees_iff _ (fun f => U f \/ (forall g, ~ U g) /\ V f)).
  - intros f. split.
    + intros [(-> & b & c & a & E & N & B & ->)|(_ & K & D & ->)]; [eapply f_undefined; try eassumption; reflexivity|apply f_negation; assumption].
    + intros F. inversion F as [r tx b c a S1 S2 D B|pre' tx' post' dots' k' D N|r ts acts b name a TA' E N B|r ts acts TA' K C|path e D|path D]; subst; try discriminate.
      * left. cbn [same_as_characters] in S1. destruct dots; [|discriminate]. injection S1 as ->. split; [reflexivity|]. exists b, c, a. auto.
      * right. split; [|split; auto]. intros g (-> & b & c & a & -> & Nc & _). apply (D eq_refl c); [apply in_elt|exact Nc].
  - apply agrees_bind.
    + destruct dots as [|s]; [|intros f [[=] _]]. apply (agrees_iff _ _ U) with (2 := implicit_agrees x text).
      intros f. unfold U. split; [intros H; split; [reflexivity|exact H]|tauto].
    + intros t Et. assert (K : dots = Implicit -> forall c, In c text -> defs_get (x_defs x) c <> None).
      { intros -> c I. apply (implicit_known _ _ _ Et c I). }
      unfold match_insert, re_of_match. pose proof (patterns_none (x_chars x) pre X1 W1) as A1. pose proof (patterns_none (x_chars x) post X2 W2) as A2.
      assert (DD : double_negation (pre ++ post) <-> double_negation pre \/ double_negation post).
      { rewrite <- !doubled_all, existsb_app, orb_true_iff. reflexivity. }
      destruct (re_of_patterns (x_chars x) pre) as [a|]; cbn [opt_map2].
      * destruct (re_of_patterns (x_chars x) post) as [b|]; cbn [agrees].
        -- intros f (_ & D & _). apply DD in D. destruct D as [D|D]; [apply A1 in D|apply A2 in D]; discriminate.
        -- intros f. unfold V. split; [tauto|]. intros ->. split; [exact K|]. split; [|reflexivity]. apply DD. right. apply A2. reflexivity.
      * cbn [agrees]. intros f. unfold V. split; [tauto|]. intros ->. split; [exact K|]. split; [|reflexivity]. apply DD. left. apply A1. reflexivity.
Qed.

(** ** Rules with a text *)
Definition plain (r : rule) : bool :=
  match r with
  | RMatch _ _ _ _ _ | RContext _ _ _ | RCorrect _ _ _ | RPass2 _ _ _ | RPass3 _ _ _ | RPass4 _ _ _ | RIncludeHyphenation _ => false
  | _ => true
  end.
Definition undefined_in (x : context) (text : str) (f : fault) : Prop :=
  exists before c after, text = before ++ c :: after /\ defs_get (x_defs x) c = None /\
     (forall b, In b before -> defs_get (x_defs x) b <> None) /\ f = Error (ImplicitCharacterNotDefined c).
Lemma faulty_plain x r f : plain r = true ->
  (faulty x r f <-> match same_as_characters r with Some text => undefined_in x text f | None => False end).
Proof.
  intros P. split.
  - intros F. destruct F as [r text b c a S1 S2 D B|pre text post dots k D N|r ts acts b name a TA' E N B|r ts acts TA' K C|path e D|path D]; try discriminate.
    + rewrite S1. exists b, c, a. auto.
    + destruct r; discriminate.
    + destruct r; discriminate.
  - destruct (same_as_characters r) as [text|] eqn:S1; [|intros []]. intros (b & c & a & E & N & B & ->). eapply f_undefined; eassumption.
Qed.
Lemma agrees_plain {A} x r (t : tres A) : plain r = true ->
  agrees t (fun f => match same_as_characters r with Some text => undefined_in x text f | None => False end) -> agrees t (faulty x r).
Proof. intros P. apply agrees_iff. intros f. symmetry. apply faulty_plain, P. Qed.
Lemma agrees_then {A B} (u : tres A) (k : A -> tres B) F : agrees u F -> (forall a, u = TOk a -> exists b, k a = TOk b) -> agrees (tbind u k) F.
Proof. destruct u as [a|e|]; cbn [agrees tbind]; intros H K; [destruct (K a eq_refl) as (b & ->); exact H|exact H|exact H]. Qed.

Lemma insert_ok ctx d n a : ins_from d a <> [] -> exists n', trie_insert compat ctx d n a = TOk n'.
Proof. unfold trie_insert. destruct (ins_from d a); [congruence|eauto]. Qed.
Lemma insert_main_ok d x b a : ins_from d a <> [] -> exists b', insert_main compat d x b a = TOk b'.
Proof. intros N. unfold insert_main. destruct (insert_ok (trie_ctx d x) d (b_trie b) a N) as (n & ->). cbn [tbind]. eauto. Qed.
Lemma insert_rules_ok d x r l : Forall (fun a => ins_from d a <> []) l -> forall b, exists b', insert_rules compat d x r b l = TOk b'.
Proof.
  induction 1 as [|a l N _ IH]; intros b; cbn [insert_rules]; [eauto|]. unfold insert_rule. destruct (is_nocross r).
  - destruct (insert_ok (trie_ctx d x) d (b_nocross b) a N) as (n & ->). cbn [tbind]. apply IH.
  - destruct (insert_main_ok d x b a N) as (b' & ->). cbn [tbind]. apply IH.
Qed.
Lemma character_ok d x r c dots b : dots <> [] -> exists b', insert_character compat d x r c dots b = TOk b'.
Proof. intros N. unfold insert_character. destruct d; [eauto|]. apply insert_main_ok. exact N. Qed.
Lemma indicator_ok d x rules r dots b : dots <> [] -> exists b', backward_indicator compat d x rules r dots b = TOk b'.
Proof.
  intros N. unfold backward_indicator. destruct d; cbn [is_backward andb]; [eauto|]. destruct (negb _); [|eauto]. apply insert_main_ok. exact N.
Qed.
Lemma from_ok d r chars dots p q ks : chars <> [] -> dots <> [] -> ins_from d (ins r chars dots p q ks) <> [].
Proof. intros N1 N2. destruct d; assumption. Qed.
Lemma word_agrees d x r : from_table r -> full_defs (x_defs x) -> plain r = true -> (forall chars dots, r <> RComp6 chars dots) ->
  agrees (word_insertions x r) (faulty x r) /\ (forall l, word_insertions x r = TOk l -> Forall (fun a => ins_from d a <> []) l).
Proof.
  intros T F P NC. split.
  - apply agrees_plain; [exact P|]. destruct r; try discriminate P; cbn [word_insertions same_as_characters]; try (intros f []);
      try (destruct (NC _ _ eq_refl));
      try (destruct dots as [|s]; [|intros f []]); 
      try (apply agrees_then; [apply implicit_agrees|eauto]);
      try (destruct (forallb _ _); intros f []).
  - intros l E. destruct r; cbn [word_insertions] in E; try (injection E as <-; apply Forall_nil); try discriminate P;
      pose proof (operands_good _ _ _ T eq_refl) as G; inversion_clear G as [|? ? G1 G2];
      try (inversion_clear G2 as [|? ? G3 G4]); cbn [good_item] in *;
      try match type of E with
      | tbind (dots_of ?x ?b ?c) _ = _ => let t := fresh "t" in let Et := fresh "Et" in
          destruct (dots_of x b c) as [t| |] eqn:Et; try discriminate E; cbn [tbind] in E;
          assert (NT : t <> []) by (eapply (dots_nonempty x b c); [exact F|assumption|first [exact Coq.Init.Logic.I|destruct b; [exact Coq.Init.Logic.I|assumption]]|exact Et])
      end;
      try (destruct (forallb _ _)); injection E as <-; repeat constructor; apply from_ok; assumption.
Qed.

(** ** One rule in the main pass *)
Lemma step1_ok d x r b : from_table r -> exists b', compile_step1 compat d x b r = TOk b'.
Proof.
  intros T. destruct r; cbn [compile_step1]; eauto; apply character_ok;
    pose proof (operands_good _ _ _ T eq_refl) as G; inversion_clear G as [|? ? _ G1]; inversion_clear G1 as [|? ? G2 _]; exact G2.
Qed.
Lemma step2_agrees d x rules r b : from_table r -> full_defs (x_defs x) ->
  (forall n dv bs, compat = false -> r = RBase n dv bs -> defs_get (x_defs x) bs <> None) -> (forall k, opcode_of k r = false) ->
  agrees (compile_step2 compat read_dictionary d x rules b r) (faulty x r).
Proof.
  intros T F BS O.
  assert (W : plain r = true -> (forall chars dots, r <> RComp6 chars dots) ->
    compile_step2 compat read_dictionary d x rules b r = (tdo l <- word_insertions x r; insert_rules compat d x r b l) ->
    agrees (compile_step2 compat read_dictionary d x rules b r) (faulty x r)).
  { intros P NC ->. destruct (word_agrees d x r T F P NC) as [A B]. apply agrees_then; [exact A|]. intros l E. apply insert_rules_ok, B, E. }
  assert (C : plain r = true -> same_as_characters r = None -> (exists b', compile_step2 compat read_dictionary d x rules b r = TOk b') ->
    agrees (compile_step2 compat read_dictionary d x rules b r) (faulty x r)).
  { intros P SA (b' & ->). apply agrees_plain; [exact P|]. rewrite SA. intros f []. }
  destruct r; try (apply W; [reflexivity|discriminate|reflexivity]);
    try (apply C; [reflexivity|reflexivity|]; cbn [compile_step2]; 
         first [apply character_ok | apply indicator_ok];
         pose proof (operands_good _ _ _ T eq_refl) as G; inversion_clear G as [|? ? G1 G2];
         first [exact G1 | inversion_clear G2 as [|? ? G3 _]; exact G3]);
    try (apply C; [reflexivity|reflexivity|]; cbn [compile_step2]; eexists; reflexivity);
    try (discriminate (O CorrectPass)); try (discriminate (O Pass2)); try (discriminate (O Pass3)); try (discriminate (O Pass4)); clear W.
  - (* dictionary *) clear C. cbn [compile_step2]. destruct (read_dictionary path) as [h|e|] eqn:E; cbn [tbind agrees].
    + intros f Q. inversion Q as [r text bb c a S1 S2 D B|pre text post dots k D N|r ts acts bb name a TA' E' N B|r ts acts TA' K C|p e D|p D]; subst; try discriminate; congruence.
    + intros f. split.
      * intros Q. inversion Q as [r text bb c a S1 S2 D B|pre text post dots k D N|r ts acts bb name a TA' E' N B|r ts acts TA' K C|p e' D|p D]; subst; try discriminate; congruence.
      * intros ->. apply f_dictionary, E.
    + intros f. split.
      * intros Q. inversion Q as [r text bb c a S1 S2 D B|pre text post dots k D N|r ts acts bb name a TA' E' N B|r ts acts TA' K C|p e' D|p D]; subst; try discriminate; congruence.
      * intros ->. apply f_dictionary_crash, E.
  - (* digit *) apply C; [reflexivity|reflexivity|]. cbn [compile_step2].
    pose proof (operands_good _ _ _ T eq_refl) as G. inversion_clear G as [|? ? _ G1]. inversion_clear G1 as [|? ? G2 _]. cbn [good_item] in G2.
    destruct (mem c (litdigit_chars d rules)); [cbn [tbind]; eauto|].
    destruct (character_ok d x (RDigit c dots k) c dots b G2) as (b' & ->). cbn [tbind]. eauto.
  - (* base *) apply C; [reflexivity|reflexivity|]. cbn [compile_step2]. destruct (defs_get (x_defs x) base) as [t|] eqn:E.
    + apply character_ok. eapply F, E.
    + specialize (BS name derived base). destruct compat; [eauto|]. destruct (BS eq_refl eq_refl E).
  - (* litdigit *) apply C; [reflexivity|reflexivity|]. cbn [compile_step2].
    pose proof (operands_good _ _ _ T eq_refl) as G. inversion_clear G as [|? ? _ G1]. inversion_clear G1 as [|? ? G2 _]. cbn [good_item] in G2.
    destruct (character_ok d x (RLitdigit c dots k) c dots b G2) as (b' & ->). cbn [tbind]. eauto.
  - (* comp6 *) clear C. cbn [compile_step2].
    pose proof (operands_good _ _ _ T eq_refl) as G. inversion_clear G as [|? ? G0 G1]. inversion_clear G1 as [|? ? G2 _]. cbn [good_item] in G0, G2.
    apply agrees_then.
    + apply agrees_plain; [reflexivity|]. cbn [same_as_characters]. destruct dots as [|s]; [apply implicit_agrees|intros f []].
    + intros t Et. assert (NT : t <> []) by (eapply (dots_nonempty x dots chars); [exact F|exact G0|destruct dots; [exact Coq.Init.Logic.I|exact G2]|exact Et]).
      destruct (insert_ok (trie_ctx d x) d (b_comp6 b) (ins (RComp6 chars dots) chars t None None [])) as (n & ->); [apply from_ok; assumption|]. cbn [tbind]. eauto.
  - (* context *) clear C. cbn [compile_step2]. pose proof (operands_good _ _ _ T eq_refl) as G. inversion_clear G as [|? ? G1 _]. destruct G1 as (o & G1).
    apply agrees_then; [|eauto]. eapply context_agrees; [reflexivity|exact G1].
  - (* match *) clear C. cbn [compile_step2]. pose proof (operands_good _ _ _ T eq_refl) as G. inversion_clear G as [|? ? G1 G2]. inversion_clear G2 as [|? ? _ G3]. inversion_clear G3 as [|? ? G4 _].
    destruct G1 as (o1 & r1 & N1 & P1), G4 as (o2 & r2 & N2 & P2).
    pose proof (match_agrees x pre chars post dots k o1 o2 r1 r2 N1 P1 N2 P2) as A. revert A.
    destruct (dots_of x dots chars) as [t| |]; cbn [tbind]; try (exact (fun h => h)).
    destruct (match_insert _ _ _ _ _ _); exact (fun h => h).
Qed.
End Rules.

(** ** The passes *)
Section Passes.
Variable alph : char -> bool.
Variable compat : bool.
Variable read_dictionary : str -> tres hyph.
Variable order1 order2 : list str -> list str.
Hypothesis order1_ok : permuting order1.
Hypothesis order2_ok : permuting order2.
Variable d : direction.
Variable x xm : context.
Notation problem := (problem read_dictionary d x xm).

Lemma writes_ok a : consumes_input a = true <-> writes a.
Proof.
  unfold consumes_input, writes. rewrite existsb_exists. split.
  - intros (i & I & H). destruct i; try discriminate; eauto.
  - intros (s & [I|I]); eexists; (split; [exact I|reflexivity]).
Qed.
Lemma multipass_agrees k st l : k <> MainPass -> Forall from_table l ->
  agrees (multipass_compile (filter (opcode_of k) l) d st x) (first_in (fun r => problem (k, r)) l).
Proof.
  intros NM F. induction F as [|r l T F IH]; [intros f (b & a & q & E & _); destruct b; discriminate|].
  assert (SK : (forall f, ~ problem (k, r) f) -> forall (t : tres (list cpat)), agrees t (first_in (fun r => problem (k, r)) l) -> agrees t (first_in (fun r => problem (k, r)) (r :: l))).
  { intros N t. apply agrees_iff. intros f. rewrite first_cons. split; [intros H; right; split; [exact N|exact H]|]. intros [H|[_ H]]; [destruct (N f H)|exact H]. }
  cbn [filter]. destruct (opcode_of k r) eqn:O.
  2: { apply SK; [|exact IH]. intros f [L _]. cbn [fst snd] in L. destruct k; try congruence; cbn [looked_at] in L; destruct L; congruence. }
  assert (G : exists tests actions operand, test_and_action r = Some (tests, actions) /\ parse_tests operand = Good tests [] /\
     multipass_compile (r :: filter (opcode_of k) l) d st x =
     (if (match d with Backward => true | Forward => false end && negb (consumes_input actions))%bool
      then multipass_compile (filter (opcode_of k) l) d st x
      else tdo p <- context_insert x tests actions r st; tdo ps <- multipass_compile (filter (opcode_of k) l) d st x; TOk (p :: ps))).
  { destruct k; try congruence; destruct r; try discriminate O; pose proof (operands_good _ _ _ T eq_refl) as G; inversion_clear G as [|? ? G1 _];
      destruct G1 as (o & G1); exists test, action, o; (split; [reflexivity|]); (split; [exact G1|reflexivity]). }
  destruct G as (tests & actions & operand & TA & PT & ->).
  assert (LK : looked_at d k r <-> (d = Backward -> consumes_input actions = true)).
  { assert (X : looked_at d k r <-> (d = Backward -> exists ts acts, test_and_action r = Some (ts, acts) /\ writes acts)).
    { destruct k; try congruence; cbn [looked_at]; tauto. }
    rewrite X. split; intros H E; specialize (H E).
    - destruct H as (ts & acts & E' & Wr). rewrite TA in E'. injection E' as <- <-. apply writes_ok, Wr.
    - exists tests, actions. split; [exact TA|apply writes_ok, H]. }
  destruct (match d with Backward => true | Forward => false end && negb (consumes_input actions))%bool eqn:SKIP.
  - apply SK; [|exact IH]. intros f [L _]. cbn [fst snd] in L. apply andb_prop in SKIP. destruct SKIP as [D C]. apply negb_true_iff in C.
    destruct d; [discriminate|]. rewrite (proj1 LK L eq_refl) in C. discriminate.
  - assert (L : looked_at d k r).
    { apply LK. intros ->. cbn [andb] in SKIP. apply negb_false_iff in SKIP. exact SKIP. }
    apply (agrees_iff _ _ _ (fun f => iff_sym (first_cons _ r l f))). apply agrees_bind.
    + apply (agrees_iff _ (faulty read_dictionary x r)); [|eapply context_agrees; eassumption].
      intros f. unfold FaultSpec.problem. cbn [fst snd]. destruct k; try congruence; tauto.
    + intros p _. apply agrees_then; [exact IH|eauto].
Qed.
Lemma multipass_step_agrees k st which make l : k <> MainPass -> (forall r, which r = opcode_of k r) -> Forall from_table l ->
  agrees (multipass_step_of which make st d x l) (first_in (fun r => problem (k, r)) l).
Proof.
  intros NM W F. pose proof (multipass_agrees k st l NM F) as A. unfold multipass_step_of. rewrite (filter_ext _ _ W l).
  destruct (filter (opcode_of k) l) as [|r q] eqn:E; [exact A|]. apply agrees_then; [exact A|eauto].
Qed.
Lemma contractions_nonempty l s : Forall from_table l -> In s (contractions l) -> s <> [].
Proof.
  intros F I. unfold contractions in I. apply nodup_In, in_flat_map in I. destruct I as (r & I & J). rewrite Forall_forall in F. specialize (F r I).
  destruct r; cbn in J; try (destruct J; fail). destruct J as [<-|[]].
  pose proof (operands_good _ _ _ F eq_refl) as G. inversion_clear G as [|? ? G1 _]. exact G1.
Qed.
Lemma insert_all_ok ctx dd l : Forall (fun a => ins_from dd a <> []) l -> forall n, exists n', trie_insert_all compat ctx dd n l = TOk n'.
Proof.
  induction 1 as [|a l N _ IH]; intros n; cbn [trie_insert_all]; [eauto|]. destruct (insert_ok compat ctx dd n a N) as (n' & ->). cbn [tbind]. apply IH.
Qed.
Lemma contraction_trie_ok order l dots r : permuting order -> Forall from_table l -> exists n, contraction_trie compat xm l order dots r = TOk n.
Proof.
  intros P F. unfold contraction_trie. apply insert_all_ok. apply Forall_forall. intros a I. apply in_map_iff in I. destruct I as (s & <- & I).
  cbn [contraction_args ins_from i_from]. apply (contractions_nonempty l s F). apply (Permutation.Permutation_in _ (P _)), I.
Qed.
Lemma indicators_ok l : Forall from_table l -> exists i, build_indicators compat xm l order1 order2 = TOk i.
Proof.
  intros F. unfold build_indicators.
  assert (L : exists li, build_letter_ind compat xm l order1 = TOk li).
  { unfold build_letter_ind. destruct (last_rule _ _) as [[dots r]|]; [|eauto]. destruct (contraction_trie_ok order1 l dots r order1_ok F) as (n & ->). cbn [tbind]. eauto. }
  destruct L as (li & ->). cbn [tbind].
  assert (L : exists nc, build_nocont_ind compat xm l order2 = TOk nc).
  { unfold build_nocont_ind. destruct (last_rule _ _) as [[dots r]|]; [|eauto]. destruct (is_empty _); [eauto|].
    destruct (contraction_trie_ok order2 l dots r order2_ok F) as (n & ->). cbn [tbind]. eauto. }
  destruct L as (nc & ->). cbn [tbind]. eauto.
Qed.
Lemma main_agrees l : Forall from_table l -> context_compile alph compat l = TOk xm ->
  agrees (main_compile alph compat read_dictionary order1 order2 d xm l) (first_in (fun r => problem (MainPass, r)) l).
Proof.
  intros F EC. unfold main_compile. apply agrees_then; [|intros p _; destruct (indicators_ok l F) as (i & ->); cbn [tbind]; eauto].
  unfold primary_compile.
  assert (S1 : forall m b, Forall from_table m -> exists b', compile_fold (compile_step1 compat d xm) b m = TOk b').
  { induction m as [|r m IH]; intros b Fm; cbn [compile_fold]; [eauto|]. inversion Fm; subst. destruct (step1_ok compat d xm r b) as (b' & ->); [assumption|]. cbn [tbind]. apply IH. assumption. }
  destruct (S1 l builder_new F) as (b & ->). cbn [tbind]. apply agrees_then; [|eauto].
  apply (agrees_fold (compile_step2 compat read_dictionary d xm l) (fun r => problem (MainPass, r)) (compile_fold (compile_step2 compat read_dictionary d xm l)) (fun _ => eq_refl) (fun _ _ _ => eq_refl)).
  intros b' r I. rewrite Forall_forall in F. pose proof (F r I) as T.
  assert (D : (forall k, opcode_of k r = false) \/ exists k, opcode_of k r = true).
  { destruct r; try (left; intros []; reflexivity).
    all: right; first [exists CorrectPass; reflexivity|exists Pass2; reflexivity|exists Pass3; reflexivity|exists Pass4; reflexivity]. }
  destruct D as [O|(k & O)].
  - apply (agrees_iff _ (faulty read_dictionary xm r)).
    + intros f. unfold FaultSpec.problem. cbn [fst snd looked_at]. tauto.
    + apply step2_agrees; [exact T| |intros n dv bs EQ ->|exact O].
      * eapply context_full; [|exact EC]. apply Forall_forall, F.
      * subst compat. eapply context_bases; eassumption.
  - apply agrees_ok; [|intros f [L _]; cbn [fst snd looked_at] in L; congruence].
    destruct k, r; try discriminate O; cbn [compile_step2 word_insertions tbind insert_rules]; eauto.
Qed.
Theorem compile_agrees table : Forall from_table table ->
  context_compile alph compat table = TOk x -> context_compile alph compat (filter (is_direction d) table) = TOk xm ->
  agrees (pipeline_compile alph compat read_dictionary order1 order2 table d) (first_problem read_dictionary d x xm (filter (is_direction d) table)).
Proof.
  intros F EC EM. unfold pipeline_compile. rewrite EC. cbn [tbind].
  assert (Fr : Forall from_table (filter (is_direction d) table)).
  { apply Forall_forall. intros r I. apply filter_In in I. rewrite Forall_forall in F. apply F, I. }
  set (rules := filter (is_direction d) table) in *.
  apply (agrees_iff _ (first_in problem (agenda rules))); [intros f; reflexivity|].
  unfold agenda, compile_order. cbn [list_prod]. rewrite app_nil_r.
  apply (agrees_iff _ _ _ (fun f => iff_sym (first_app problem _ _ f))). apply agrees_bind.
  { apply (agrees_iff _ _ _ (fun f => iff_sym (first_map problem (pair CorrectPass) rules f))). apply multipass_step_agrees; [discriminate| |exact Fr]. intros r. destruct r; reflexivity. }
  intros s1 _. rewrite EM. cbn [tbind].
  apply (agrees_iff _ _ _ (fun f => iff_sym (first_app problem _ _ f))). apply agrees_bind.
  { apply (agrees_iff _ _ _ (fun f => iff_sym (first_map problem (pair MainPass) rules f))). apply main_agrees; assumption. }
  intros m _.
  apply (agrees_iff _ _ _ (fun f => iff_sym (first_app problem _ _ f))). apply agrees_bind.
  { apply (agrees_iff _ _ _ (fun f => iff_sym (first_map problem (pair Pass2) rules f))). apply multipass_step_agrees; [discriminate| |exact Fr]. intros r. destruct r; reflexivity. }
  intros s2 _.
  apply (agrees_iff _ _ _ (fun f => iff_sym (first_app problem _ _ f))). apply agrees_bind.
  { apply (agrees_iff _ _ _ (fun f => iff_sym (first_map problem (pair Pass3) rules f))). apply multipass_step_agrees; [discriminate| |exact Fr]. intros r. destruct r; reflexivity. }
  intros s3 _. apply agrees_then; [|eauto].
  apply (agrees_iff _ _ _ (fun f => iff_sym (first_map problem (pair Pass4) rules f))). apply multipass_step_agrees; [discriminate| |exact Fr]. intros r. destruct r; reflexivity.
Qed.
End Passes.
