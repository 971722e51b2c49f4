(** Two contexts whose classes of cells have the same members, whatever the order in which they were
    filled, give the same matchers, passes and tries. *)
From Coq Require Import Permutation.
From Verif Require Import Base BaseProofs RuleModel TranslationModel TableModel RegexpModel PatternModel HyphenationModel TrieModel TrieProofs
  OperandProofs LoopModel PrimaryProofs CompileModel CompileSpec CompileProofs MainTable ConstraintModel IndicatorModel MainPass FrameSpec FrameProofs.

Lemma sort_dedup_ext a b : (forall c, In c a <-> In c b) -> sort_dedup a = sort_dedup b.
Proof. intros H. apply ssorted_ext; try apply sort_dedup_sorted. intros c. rewrite !sort_dedup_In. apply H. Qed.
(** classes with the same members *)
Definition same_classes (m n : classes) : Prop := forall k c, In (k, c) m <-> In (k, c) n.
Lemma same_sym m n : same_classes m n -> same_classes n m.
Proof. intros H k c. symmetry. apply H. Qed.
Lemma same_trans m n o : same_classes m n -> same_classes n o -> same_classes m o.
Proof. intros H G k c. rewrite (H k c). apply G. Qed.
Section Same.
Variable m n : classes.
Hypothesis SC : same_classes m n.
Lemma same_chars k c : In c (cls_chars m k) <-> In c (cls_chars n k).
Proof.
  unfold cls_chars. rewrite !in_map_iff. split; intros ([k' c'] & E & I); cbn in E; subst c'; apply filter_In in I; destruct I as [I F]; exists (k', c); (split; [reflexivity|]);
    apply filter_In; (split; [apply SC, I|exact F]).
Qed.
Lemma get_chars k c : In c (match cls_get m k with Some l => l | None => [] end) <-> In c (match cls_get n k with Some l => l | None => [] end).
Proof.
  assert (G : forall w, match cls_get w k with Some l => l | None => [] end = cls_chars w k) by (intros w; unfold cls_get; destruct (cls_chars w k); reflexivity).
  rewrite !G. apply same_chars.
Qed.
Lemma same_resolve ks : rc_resolve m ks = rc_resolve n ks.
Proof. unfold rc_resolve. f_equal. apply sort_dedup_ext. intros c. rewrite !in_flat_map. split; intros (k & I & H); exists k; (split; [exact I|]); apply get_chars; exact H. Qed.
Lemma same_path_of d a : ins_path m d a = ins_path n d a.
Proof.
  unfold ins_path. assert (R : forall t, resolve_transition m t = resolve_transition n t) by (intros []; cbn; rewrite same_resolve; reflexivity).
  assert (E1 : forall l, flat_map (fun k => match k with KStart c => [EStart (rc_resolve m [c])] | KEnd _ => [] end) l = flat_map (fun k => match k with KStart c => [EStart (rc_resolve n [c])] | KEnd _ => [] end) l).
  { induction l as [|[k|k] l IH]; cbn [flat_map]; rewrite ?IH, ?same_resolve; reflexivity. }
  assert (E2 : forall l, flat_map (fun k => match k with KEnd c => [EEnd (rc_resolve m [c])] | KStart _ => [] end) l = flat_map (fun k => match k with KEnd c => [EEnd (rc_resolve n [c])] | KStart _ => [] end) l).
  { induction l as [|[k|k] l IH]; cbn [flat_map]; rewrite ?IH, ?same_resolve; reflexivity. }
  rewrite E1, E2, !(map_ext _ _ R). reflexivity.
Qed.
Lemma same_insert compat d nd a : trie_insert compat m d nd a = trie_insert compat n d nd a.
Proof. unfold trie_insert, ins_value, ins_weight. rewrite same_path_of. reflexivity. Qed.

(** patterns *)
Lemma same_class k : class_chars m k = class_chars n k.
Proof. apply sort_dedup_ext. intros c. apply get_chars. Qed.
Lemma same_attrs attrs : attrs_chars m attrs = attrs_chars n attrs.
Proof.
  unfold attrs_chars. f_equal. induction attrs as [|a l IH]; [reflexivity|]. cbn [flat_map]. rewrite IH. destruct a; rewrite ?same_class; reflexivity.
Qed.
Lemma same_instr t : re_of_instr m t = re_of_instr n t.
Proof.
  induction t as [v|v o x|s|s|a q|w q|t IH|ts IH| |] using test_ind'; cbn [re_of_instr]; rewrite ?same_class, ?same_attrs; try reflexivity.
  - rewrite IH. reflexivity.
  - assert (X : (fix all (l : list test_instr) : option (list regexp) :=
       match l with [] => Some [] | x :: r => match re_of_instr m x, all r with Some a, Some b => Some (a :: b) | _, _ => None end end) ts =
       (fix all (l : list test_instr) : option (list regexp) :=
       match l with [] => Some [] | x :: r => match re_of_instr n x, all r with Some a, Some b => Some (a :: b) | _, _ => None end end) ts).
    { induction IH as [|t ts H IH IHts]; [reflexivity|]. rewrite H, IHts. reflexivity. }
    rewrite X. reflexivity.
Qed.
Lemma same_instrs l : re_of_instrs m l = re_of_instrs n l.
Proof.
  unfold re_of_instrs. assert (E : re_of_all m l = re_of_all n l); [|rewrite E; reflexivity].
  induction l as [|t l IH]; cbn [re_of_all]; [reflexivity|]. rewrite same_instr, IH. reflexivity.
Qed.
End Same.

(** Contexts that are equal but for the order in which the classes of cells were filled. *)
Definition similar (y z : context) : Prop := like y z /\ same_classes (x_dots y) (x_dots z).
Lemma similar_refl y : similar y y.
Proof. split; [apply like_refl|]. intros k c. reflexivity. Qed.
Lemma similar_trans x y z : similar x y -> similar y z -> similar x z.
Proof. intros [A B] [C D]. split; [unfold like in *; intuition congruence|eapply same_trans; eauto]. Qed.
Lemma similar_sym y z : similar y z -> similar z y.
Proof. intros [A B]. split; [unfold like in *; intuition congruence|apply same_sym, B]. Qed.

Lemma like_indicators compat y z rules o1 o2 : like y z -> build_indicators compat y rules o1 o2 = build_indicators compat z rules o1 o2.
Proof. destruct y as [d1 c1 e1 s1], z as [d2 c2 e2 s2]. unfold like. cbn [x_defs x_chars x_swaps]. intros (-> & -> & ->). reflexivity. Qed.
Lemma like_scanner y z rules : like y z -> build_scanner y rules = build_scanner z rules.
Proof. destruct y as [d1 c1 e1 s1], z as [d2 c2 e2 s2]. unfold like. cbn [x_defs x_chars x_swaps]. intros (-> & -> & ->). reflexivity. Qed.

Section Similar.
Variable y z : context.
Hypothesis SM : similar y z.
Let ED : x_defs y = x_defs z := proj1 (proj1 SM).
Let EC : x_chars y = x_chars z := proj1 (proj2 (proj1 SM)).
Let ES : x_swaps y = x_swaps z := proj2 (proj2 (proj1 SM)).
Lemma similar_stage st : same_classes (stage_classes y st) (stage_classes z st).
Proof. destruct st; cbn [stage_classes]; try rewrite EC; try (intros k c; reflexivity); apply SM. Qed.
Lemma similar_ctx d : same_classes (trie_ctx d y) (trie_ctx d z).
Proof. destruct d; cbn [trie_ctx]; [rewrite EC; intros k c; reflexivity|apply SM]. Qed.
Lemma similar_context_insert test action o st : context_insert y test action o st = context_insert z test action o st.
Proof. unfold context_insert. rewrite ES, (same_instrs _ _ (similar_stage st)). reflexivity. Qed.
Lemma similar_multipass d st l : multipass_compile l d st y = multipass_compile l d st z.
Proof. induction l as [|q l IH]; [reflexivity|]. destruct q; cbn [multipass_compile]; rewrite ?similar_context_insert, ?IH; reflexivity. Qed.

Section Main.
Variable is_alphabetic : char -> bool.
Variable compat : bool.
Variable read_dictionary : str -> tres hyph.
Variable d : direction.
Variable rules : list rule.
Lemma similar_insert nd a : trie_insert compat (trie_ctx d y) d nd a = trie_insert compat (trie_ctx d z) d nd a.
Proof. apply same_insert, similar_ctx. Qed.
Lemma similar_insert_main b a : insert_main compat d y b a = insert_main compat d z b a.
Proof. unfold insert_main. rewrite similar_insert. reflexivity. Qed.
Lemma similar_character r c dots b : insert_character compat d y r c dots b = insert_character compat d z r c dots b.
Proof. pose proof similar_insert_main as Q. unfold insert_character. destruct d; [reflexivity|]. apply Q. Qed.
Lemma similar_indicator r dots b : backward_indicator compat d y rules r dots b = backward_indicator compat d z rules r dots b.
Proof. unfold backward_indicator. rewrite similar_insert_main. reflexivity. Qed.
Lemma similar_class_constraints w : class_constraints y w = class_constraints z w.
Proof. unfold class_constraints. rewrite EC. reflexivity. Qed.
Lemma similar_word r : word_insertions y r = word_insertions z r.
Proof. unfold word_insertions, dots_of. rewrite ED, EC. destruct r; rewrite ?similar_class_constraints; reflexivity. Qed.
Lemma similar_insert_rules r l : forall b, insert_rules compat d y r b l = insert_rules compat d z r b l.
Proof.
  induction l as [|a l IH]; intros b; cbn [insert_rules]; [reflexivity|].
  unfold insert_rule. rewrite similar_insert, similar_insert_main.
  match goal with |- (tdo b' <- ?e; _) = _ => destruct e; cbn [tbind]; auto end.
Qed.
Lemma similar_step2 b r : compile_step2 compat read_dictionary d y rules b r = compile_step2 compat read_dictionary d z rules b r.
Proof.
  unfold compile_step2, dots_of. rewrite similar_word, ED, EC.
  assert (EI : forall l, insert_rules compat d y r b l = insert_rules compat d z r b l) by (intros l; apply similar_insert_rules).
  destruct r; rewrite ?similar_character, ?similar_indicator, ?similar_context_insert; try reflexivity;
    try (match goal with |- (tdo l <- ?e; _) = _ => destruct e; cbn [tbind]; rewrite ?similar_insert; auto end; fail).
Qed.
Lemma similar_fold f g l : (forall b r, f b r = g b r) -> forall b, compile_fold f b l = compile_fold g b l.
Proof. intros H. induction l as [|r l IH]; intros b; cbn [compile_fold]; [reflexivity|]. rewrite H. destruct (g b r); cbn [tbind]; auto. Qed.
Lemma similar_primary : primary_compile compat read_dictionary d y rules = primary_compile compat read_dictionary d z rules.
Proof.
  unfold primary_compile. rewrite (similar_fold (compile_step1 compat d y) (compile_step1 compat d z)).
  2:{ intros b r. destruct r; cbn [compile_step1]; try reflexivity; apply similar_character. }
  destruct (compile_fold _ _ _) as [b| |]; cbn [tbind]; [|reflexivity..].
  rewrite (similar_fold (compile_step2 compat read_dictionary d y rules) (compile_step2 compat read_dictionary d z rules)) by (intros; apply similar_step2).
  rewrite ED. reflexivity.
Qed.
Lemma similar_constrainers : build_constrainers is_alphabetic read_dictionary d y rules = build_constrainers is_alphabetic read_dictionary d z rules.
Proof.
  assert (EL : letter_cells is_alphabetic d y rules = letter_cells is_alphabetic d z rules).
  { unfold letter_cells. destruct (is_backward d); [|reflexivity]. apply sort_dedup_ext. intros c. rewrite !in_app_iff, (same_chars _ _ (proj2 SM)). reflexivity. }
  assert (EG : digit_cells d y = digit_cells d z).
  { unfold digit_cells. destruct (is_backward d); [|reflexivity]. apply sort_dedup_ext. intros c. rewrite !in_app_iff, !(same_chars _ _ (proj2 SM)). reflexivity. }
  unfold build_constrainers, build_numeric, build_caps, build_number, build_hyphen, build_punct, has_punct, digits. rewrite EL, EG, EC. reflexivity.
Qed.
Lemma similar_indicators o1 o2 : build_indicators compat y rules o1 o2 = build_indicators compat z rules o1 o2.
Proof. apply like_indicators, SM. Qed.
Lemma main_built_similar m : main_built is_alphabetic compat read_dictionary d y rules m -> main_built is_alphabetic compat read_dictionary d z rules m.
Proof.
  intros [R I C S]. constructor.
  - destruct R as (p0 & E & RR). exists p0. rewrite <- similar_primary. auto.
  - destruct I as (o1 & o2 & i0 & O1 & O2 & E & RR). exists o1, o2, i0. rewrite <- similar_indicators. auto.
  - rewrite C. apply similar_constrainers.
  - rewrite S. apply like_scanner, SM.
Qed.
End Main.
End Similar.

(** ** What a rule that translates its text adds to the classes *)
Section Plus.
Variable is_alphabetic : char -> bool.
Variable compat : bool.
Variable P : class -> char -> Prop.
(** [z] is [y] with the cells of [P] in the classes of cells *)
Definition plus (y z : context) : Prop := like y z /\ forall k c, In (k, c) (x_dots z) <-> In (k, c) (x_dots y) \/ P k c.
Lemma insert_dots_plus k dots m n : (forall k c, In (k, c) n <-> In (k, c) m \/ P k c) ->
  forall k' c, In (k', c) (cls_insert_dots n k dots) <-> In (k', c) (cls_insert_dots m k dots) \/ P k' c.
Proof. intros H k' c. unfold cls_insert_dots, cls_insert. destruct dots as [|d [|]]; auto. cbn [In]. rewrite H. tauto. Qed.
Lemma fold_plus {A} (f : classes -> A -> classes) l :
  (forall v m n, (forall k c, In (k, c) n <-> In (k, c) m \/ P k c) -> forall k' c, In (k', c) (f n v) <-> In (k', c) (f m v) \/ P k' c) ->
  forall m n, (forall k c, In (k, c) n <-> In (k, c) m \/ P k c) -> forall k c, In (k, c) (fold_left f l n) <-> In (k, c) (fold_left f l m) \/ P k c.
Proof. intros H. induction l as [|v l IH]; intros m n E; cbn [fold_left]; [exact E|]. apply IH. intros k' c. apply H, E. Qed.
Lemma step1_plus y z q : plus y z -> plus (context_step1 is_alphabetic compat y q) (context_step1 is_alphabetic compat z q).
Proof.
  intros [L E]. split; [apply step1_like, L|].
  destruct q; cbn [context_step1 define x_dots]; auto;
    try (intros k' c'; apply fold_plus; [intros v m n; apply insert_dots_plus|exact E]).
  destruct (forallb is_alphabetic chars); cbn [x_dots]; [|exact E].
  intros k' c'. apply fold_plus; [|exact E]. intros v m n H k0 c0. cbn [cls_insert In]. rewrite H. tauto.
Qed.
Lemma steps1_plus l : forall y z, plus y z -> plus (fold_left (context_step1 is_alphabetic compat) l y) (fold_left (context_step1 is_alphabetic compat) l z).
Proof. induction l as [|q l IH]; intros y z H; cbn; [exact H|]. apply IH, step1_plus, H. Qed.
Lemma step2_plus y z q y' z' : plus y z -> context_step2 compat y q = TOk y' -> context_step2 compat z q = TOk z' -> plus y' z'.
Proof.
  intros [L E] Y Z. pose proof (step2_like compat y z q L) as X. rewrite Y, Z in X. split; [exact X|]. clear X.
  assert (F : forall kd l k' c', In (k', c') (fold_left (fun m c => cls_insert_assoc m kd c (x_defs z)) l (x_dots z)) <->
     In (k', c') (fold_left (fun m c => cls_insert_assoc m kd c (x_defs y)) l (x_dots y)) \/ P k' c').
  { intros kd l. destruct L as (<- & _). intros k' c'. apply fold_plus; [|exact E]. intros v m n H k c.
    unfold cls_insert_assoc, cls_insert. destruct (defs_get (x_defs y) v) as [[|w [|]]|]; auto. cbn [In]. rewrite H. tauto. }
  destruct q; cbn [context_step2 attribute_chars add_swap x_dots] in Y, Z;
    try (injection Y as <-; injection Z as <-; cbn [x_dots attribute_chars add_swap]; first [exact E|exact (F _ _)]; fail).
  destruct L as (L1 & L2 & L3). rewrite L1 in Y. destruct (defs_get (x_defs z) base).
  - injection Y as <-. injection Z as <-. cbn [x_dots]. exact E.
  - destruct compat; [|discriminate]. injection Y as <-. injection Z as <-. exact E.
Qed.
Lemma fold2_plus l : forall y z y' z', plus y z -> context_fold2 compat y l = TOk y' -> context_fold2 compat z l = TOk z' -> plus y' z'.
Proof.
  induction l as [|q l IH]; intros y z y' z' H E1 E2; cbn [context_fold2] in *; [congruence|].
  destruct (context_step2 compat y q) as [u| |] eqn:Y; try discriminate. destruct (context_step2 compat z q) as [v| |] eqn:Z; try discriminate.
  cbn [tbind] in *. apply (IH u v y' z'); auto. eapply step2_plus; eauto.
Qed.
End Plus.

Section Contexts.
Variable is_alphabetic : char -> bool.
Variable compat : bool.
Variable r : rule.
Variable t : str.
Hypothesis T : translates r = Some t.
(** the cells that the rule makes letters *)
Definition adds (k : class) (c : char) : Prop := In (k, c) (x_dots (context_step1 is_alphabetic compat context_empty r)).
Lemma step1_adds w : plus adds w (context_step1 is_alphabetic compat w r).
Proof.
  unfold plus, adds. destruct r; try discriminate; cbn [context_step1]; try (split; [apply like_refl|intros k0 c0; cbn; tauto]; fail).
  destruct (forallb is_alphabetic chars); [|split; [apply like_refl|intros k0 c0; cbn; tauto]].
  split; [repeat split|]. cbn [x_dots context_empty].
  generalize (braille_to_string dots). intros l.
  assert (E : forall l m k c, In (k, c) (fold_left (fun m c => cls_insert m CLetter c) l m) <-> In (k, c) m \/ k = CLetter /\ In c l).
  { clear. induction l as [|v l IH]; intros m k c; cbn [fold_left In]; [tauto|]. rewrite IH. cbn [cls_insert In]. split.
    - intros [[X|X]|[X Y]]; auto. injection X as <- <-. auto.
    - intros [X|[X [<-|Y]]]; auto. subst k. auto. }
  intros k0 c0. rewrite !E. cbn [In]. tauto.
Qed.
Lemma context_plus a b y z : context_compile is_alphabetic compat (a ++ b) = TOk y -> context_compile is_alphabetic compat (a ++ r :: b) = TOk z -> plus adds y z.
Proof.
  unfold context_compile. rewrite (fold2_skip compat r t a T b). intros Y Z. refine (fold2_plus is_alphabetic compat adds _ _ _ _ _ _ Y Z).
  rewrite !fold_left_app. cbn [fold_left]. apply steps1_plus, step1_adds.
Qed.
Lemma context_skips a b : (exists y, context_compile is_alphabetic compat (a ++ b) = TOk y) <-> (exists z, context_compile is_alphabetic compat (a ++ r :: b) = TOk z).
Proof.
  unfold context_compile. rewrite (fold2_skip compat r t a T b).
  assert (L : like (fold_left (context_step1 is_alphabetic compat) (a ++ b) context_empty) (fold_left (context_step1 is_alphabetic compat) (a ++ r :: b) context_empty)).
  { rewrite !fold_left_app. cbn [fold_left]. apply steps1_like, step1_adds. }
  revert L. generalize (fold_left (context_step1 is_alphabetic compat) (a ++ b) context_empty) (fold_left (context_step1 is_alphabetic compat) (a ++ r :: b) context_empty).
  clear. intros u v. revert u v. induction (a ++ b) as [|q l IH]; intros u v L; cbn [context_fold2]; [split; eauto|].
  pose proof (step2_like compat u v q L) as X. destruct (context_step2 compat u q) as [y| |], (context_step2 compat v q) as [z| |]; try contradiction; cbn [tbind].
  - apply IH, X.
  - split; intros (w & E); discriminate.
  - split; intros (w & E); discriminate.
Qed.
Lemma plus_similar x y z : plus adds x y -> plus adds x z -> similar y z.
Proof. intros [A B] [C D]. split; [unfold like in *; intuition congruence|]. intros k c. rewrite B, D. reflexivity. Qed.
(** wherever the rule stands, and however often *)
Lemma context_moved_similar a m b y z :
  context_compile is_alphabetic compat (a ++ r :: m ++ b) = TOk y -> context_compile is_alphabetic compat (a ++ m ++ r :: b) = TOk z -> similar y z.
Proof.
  intros Y Z. destruct (proj2 (context_skips a (m ++ b))) as (x & X); [eauto|].
  pose proof (context_plus a (m ++ b) x y X Y) as H. rewrite app_assoc in X, Z.
  apply (plus_similar x); [exact H|]. eapply context_plus; eauto.
Qed.
Lemma context_repeated a m b y z :
  context_compile is_alphabetic compat (a ++ r :: m ++ b) = TOk y -> context_compile is_alphabetic compat (a ++ r :: m ++ r :: b) = TOk z -> similar y z.
Proof.
  intros Y Z. destruct (proj2 (context_skips a (m ++ b))) as (x & X); [eauto|].
  pose proof (context_plus a (m ++ b) x y X Y) as H.
  assert (G : plus adds y z).
  { change (a ++ r :: m ++ b) with (a ++ (r :: m) ++ b) in Y. change (a ++ r :: m ++ r :: b) with (a ++ (r :: m) ++ r :: b) in Z. rewrite app_assoc in Y, Z. eapply context_plus; eauto. }
  split; [apply G|]. intros k c. destruct H as [_ H], G as [_ G]. rewrite G, H. tauto.
Qed.
End Contexts.
