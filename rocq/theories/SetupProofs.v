(** The main pass watches for what its table says ([SetupSpec]). *)
From Verif Require Import Base BaseProofs RuleModel TranslationModel TranslationProofs TableModel TableProofs RegexpModel
  TrieModel TrieProofs PropTrie HyphenationModel LoopModel CompileModel CompileSpec
  CompileProofs MainTable ConstraintModel ConstraintSpec ConstraintProofs IndicatorModel
  MainSpec TraceSpec MainPass SignSpec SignProofs SetupSpec.

(** ** Only membership matters *)
Definition same_chars (l l' : list char) : Prop := forall c, In c l <-> In c l'.
Lemma same_chars_sym l l' : same_chars l l' -> same_chars l' l.
Proof. intros H c. symmetry. apply H. Qed.
Lemma at_in_ext chars p l l' : same_chars l l' -> (at_in chars p l <-> at_in chars p l').
Proof. intros H. unfold at_in. split; intros (c & E & I); exists c; (split; [exact E|]); apply H, I. Qed.
Lemma before_in_ext chars p l l' : same_chars l l' -> (before_in chars p l <-> before_in chars p l').
Proof. intros H. unfold before_in. split; intros (q & E & I); exists q; (split; [exact E|]); [rewrite <- (at_in_ext chars q l l' H)|rewrite (at_in_ext chars q l l' H)]; exact I. Qed.
Lemma in_number_ext u u' chars p : same_chars (nu_digits u) (nu_digits u') -> same_chars (nu_extra u) (nu_extra u') ->
  same_chars (nu_mid u) (nu_mid u') -> in_number u chars p -> in_number u' chars p.
Proof.
  intros H1 H2 H3 (s & L & D & G). exists s. split; [exact L|]. split; [rewrite <- (at_in_ext _ _ _ _ H1); exact D|].
  intros q Q. unfold number_goes_on. rewrite <- (at_in_ext chars q _ _ H1), <- (at_in_ext chars q _ _ H2), <- (at_in_ext chars q _ _ H3), <- (at_in_ext chars (S q) _ _ H1).
  destruct (G q Q) as [X|[X|(X & Y)]]; auto. right. right. split; [|exact Y]. destruct (nu_extra u') as [|c l]; [reflexivity|].
  assert (I : In c (nu_extra u)) by (apply H2; left; reflexivity). rewrite X in I. destruct I.
Qed.
Lemma word_at_ext l l' chars s e : same_chars l l' -> word_at l chars s e -> word_at l' chars s e.
Proof.
  intros H (A1 & A2 & A3 & A4 & A5). split; [exact A1|]. split; [exact A2|]. split; [intros q Q; rewrite <- (at_in_ext _ _ _ _ H); apply A3, Q|].
  split; [rewrite <- (before_in_ext _ _ _ _ H); exact A4|rewrite <- (at_in_ext _ _ _ _ H); exact A5].
Qed.
Lemma break_behind_ext h l l' chars p : same_chars l l' -> break_behind h l chars p -> break_behind h l' chars p.
Proof. intros H (s & e & bs & W & R). exists s, e, bs. split; [eapply word_at_ext; eauto|exact R]. Qed.
Lemma word_follows_ext u u' chars p : same_chars (pc_word u) (pc_word u') -> same_chars (pc_space u) (pc_space u') ->
  word_follows u chars p -> word_follows u' chars p.
Proof.
  intros H1 H2 (k & L & A & G). exists k. split; [exact L|]. split; [rewrite <- (at_in_ext _ _ _ _ H1); exact A|].
  intros j J. rewrite <- (at_in_ext _ _ _ _ H1), <- (at_in_ext _ _ _ _ H2). apply G, J.
Qed.
Lemma word_precedes_ext u u' chars p : same_chars (pc_word u) (pc_word u') -> same_chars (pc_space u) (pc_space u') ->
  word_precedes u chars p -> word_precedes u' chars p.
Proof.
  intros H1 H2 (k & L & A & G). exists k. split; [exact L|]. split; [rewrite <- (at_in_ext _ _ _ _ H1); exact A|].
  intros j J. rewrite <- (at_in_ext _ _ _ _ H1), <- (at_in_ext _ _ _ _ H2). apply G, J.
Qed.
Lemma caps_read_ext u u' ts : bc_letter u = bc_letter u' -> bc_begword u = bc_begword u' -> bc_endword u = bc_endword u' ->
  same_chars (bc_cells u) (bc_cells u') -> caps_read u ts -> caps_read u' ts.
Proof.
  intros E1 E2 E3 H R. induction R as [|t ts F R IH]; [constructor|]. constructor; [|exact IH].
  destruct t as [dots letters close|dots|c]; cbn [token_fits] in *; rewrite <- ?E1, <- ?E2, <- ?E3; auto.
  destruct F as (F1 & F2 & F3 & F4). split; [exact F1|]. split; [exact F2|]. split; [intros c I; apply H, F3, I|].
  destruct close; [exact F4|]. destruct F4 as [F4 F5]. split; [exact F4|]. rewrite <- (at_in_ext _ _ _ _ H). exact F5.
Qed.
Lemma number_read_ext u u' : bn_sign u = bn_sign u' -> bn_end u = bn_end u' -> same_chars (bn_digits u) (bn_digits u') ->
  same_chars (bn_letters u) (bn_letters u') -> forall ts before inn, number_read u before inn ts -> number_read u' before inn ts.
Proof.
  intros E1 E2 H1 H2 ts before inn R.
  assert (SH : forall bf s, sign_here u' bf s -> sign_here u bf s).
  { intros bf s (A & B). unfold sign_here. rewrite E1. split; [exact A|]. rewrite (before_in_ext _ _ _ _ H2). exact B. }
  induction R; constructor; rewrite <- ?E1, <- ?E2; auto.
  - rewrite <- (before_in_ext _ _ _ _ H2). assumption.
  - apply H1. assumption.
  - intros I. destruct (H0 I) as [A B]. split; [exact A|]. intros X. apply B, H1, X.
Qed.

Section Setup.
Variable is_alphabetic : char -> bool.
Variable compat : bool.
Variable read_dictionary : str -> tres hyph.
Variable d : direction.
Variable x : context.
Variable rules : list rule.

Lemma is_letter_dots_spec dots : d = Backward -> (is_letter_dots d rules dots = true <-> dots_of_letter rules dots).
Proof.
  intros D. unfold is_letter_dots, letter_dots. rewrite D, existsb_exists. split.
  - intros (s & I & E). apply str_eqb_eq in E. subst s. apply in_flat_map in I. destruct I as (r & Hr & I).
    destruct r; try destruct I as [<-|[]]; try destruct I; eexists; eexists; eauto.
  - intros (c & k & H). exists dots. split; [|apply str_eqb_eq; reflexivity]. apply in_flat_map.
    destruct H as [H|[H|H]]; eexists; (split; [exact H|left; reflexivity]).
Qed.
Lemma sign_cells_unique f o o' : sign_cells rules f o -> sign_cells rules f o' -> o = o'.
Proof.
  destruct o as [s|], o' as [s'|]; cbn [sign_cells].
  - intros (N & r & l1 & l2 & E & F & A) (N' & r' & l1' & l2' & E' & F' & A'). rewrite E in E'. clear E. apply app_eq_cases in E'.
    destruct E' as [(e & _ & X)|(e & _ & X)]; destruct e as [|e0 e]; injection X as Y X; try congruence; exfalso.
    + first [apply N'; apply (A r' s'); [rewrite X; apply in_or_app; right; left; reflexivity|exact F']
            |apply N; apply (A' r s); [rewrite X; apply in_or_app; right; left; reflexivity|exact F]].
    + first [apply N'; apply (A r' s'); [rewrite X; apply in_or_app; right; left; reflexivity|exact F']
            |apply N; apply (A' r s); [rewrite X; apply in_or_app; right; left; reflexivity|exact F]].
  - intros (N & r & l1 & l2 & E & F & _) A. destruct N. apply (A r s); [rewrite E; apply in_or_app; right; left; reflexivity|exact F].
  - intros A (N & r & l1 & l2 & E & F & _). destruct N. apply (A r s'); [rewrite E; apply in_or_app; right; left; reflexivity|exact F].
  - reflexivity.
Qed.
Lemma backward_dots_spec f : d = Backward -> sign_cells rules f (backward_dots d rules f).
Proof.
  intros D. unfold backward_dots. assert (BW : is_backward d = true) by (rewrite D; reflexivity). rewrite BW.
  destruct (last_some rules _) as [s|] eqn:E; cbn [sign_cells].
  - apply last_with_iff in E. destruct E as (r & l1 & l2 & Er & F & A). destruct (f r) as [dots|] eqn:Fr; [|discriminate].
    destruct (is_letter_dots d rules dots) eqn:LD; [discriminate|]. injection F as ->. split.
    + intros X. apply is_letter_dots_spec in X; [congruence|exact D].
    + exists r, l1, l2. split; [exact Er|]. split; [exact Fr|]. intros r' dots' I Fr'. specialize (A r' I). rewrite Fr' in A.
      apply is_letter_dots_spec; [exact D|]. destruct (is_letter_dots d rules dots'); [reflexivity|discriminate].
  - intros r dots I Fr. rewrite last_some_none in E. specialize (E r I). cbn in E. rewrite Fr in E.
    apply is_letter_dots_spec; [exact D|]. destruct (is_letter_dots d rules dots); [reflexivity|discriminate].
Qed.
Lemma letter_cells_spec c : d = Backward -> (In c (letter_cells is_alphabetic d x rules) <-> letter_cell is_alphabetic x rules c).
Proof.
  intros D. unfold letter_cells, letter_cell. assert (BW : is_backward d = true) by (rewrite D; reflexivity). rewrite BW, sort_dedup_In, in_app_iff, class_In, in_flat_map.
  apply or_iff_compat_l. split.
  - intros (r & Hr & I). destruct r; try destruct I. destruct (forallb is_alphabetic chars) eqn:FA; [|destruct I].
    do 4 eexists. split; [exact Hr|]. split; [rewrite forallb_forall in FA; exact FA|]. destruct dots; cbn in *; [|exact I].
    destruct I as [I|[]]; symmetry; exact I.
  - intros (chars & dots & k & w & Hr & FA & I). eexists. split; [exact Hr|]. cbn. assert (E : forallb is_alphabetic chars = true) by (apply forallb_forall; exact FA).
    rewrite E. destruct dots; cbn; [left; symmetry; exact I|exact I].
Qed.
Lemma digit_cells_spec c : d = Backward -> (In c (digit_cells d x) <-> cls_has (x_dots x) CDigit c = true \/ cls_has (x_dots x) CLitdigit c = true).
Proof.
  intros D. unfold digit_cells. assert (BW : is_backward d = true) by (rewrite D; reflexivity). rewrite BW, sort_dedup_In, in_app_iff, !class_In. reflexivity.
Qed.
Lemma numeric_list_spec : number_chars x rules (mk_numeric_chars (digits x) (extra_numeric rules) (mid_numeric rules)).
Proof.
  constructor; intros c; cbn [nu_digits nu_extra nu_mid].
  - apply class_In.
  - unfold extra_numeric. destruct (last_some rules _) as [l|] eqn:EL.
    + apply last_with_iff in EL. split; [intros H; destruct EL as (r & EL); eauto|].
      intros (r & cs & L & H). destruct EL as (r' & EL). destruct (last_with_unique _ _ _ _ _ _ L EL) as [_ ->]. exact H.
    + split; [intros []|]. intros (r & cs & L & H). assert (X : exists r, last_with rules (fun r => match r with RNumericmodechars cs => Some cs | _ => None end) r cs) by eauto.
      apply last_with_iff in X. congruence.
  - unfold mid_numeric. rewrite in_app_iff, !in_flat_map. split.
    + intros [(r & Hr & H)|(r & Hr & H)]; destruct r; try destruct H; try contradiction; subst; eauto 8.
    + intros [(dots & H)|(cs & dots & k & H & Hc)]; [left|right]; eexists; (split; [exact H|]); cbn; auto.
Qed.

(** ** Each builder *)
Lemma numbers_built u : build_numeric x rules = Some u -> numbers x rules u.
Proof.
  unfold build_numeric. destruct (digits x) as [|c l] eqn:E; cbn [is_empty]; [discriminate|]. intros [= <-]. rewrite <- E. split; [apply numeric_list_spec|].
  exists c. apply class_In. fold (digits x). rewrite E. left. reflexivity.
Qed.
Lemma numbers_none u : build_numeric x rules = None -> ~ numbers x rules u.
Proof.
  unfold build_numeric. destruct (digits x) as [|c l] eqn:E; cbn [is_empty]; [|discriminate]. intros _ (_ & c & H). apply class_In in H.
  fold (digits x) in H. rewrite E in H. destruct H.
Qed.
Lemma numbers_same u u' chars p : numbers x rules u -> numbers x rules u' -> in_number u chars p -> in_number u' chars p.
Proof.
  intros ([A1 A2 A3] & _) ([B1 B2 B3] & _). apply in_number_ext; intros c; rewrite ?A1, ?A2, ?A3, ?B1, ?B2, ?B3; reflexivity.
Qed.
Lemma punct_built u : build_punct d x rules = Some u -> punctuates d x rules u.
Proof.
  unfold build_punct. destruct (is_backward d) eqn:BW; [discriminate|]. cbn [negb andb]. destruct (has_punct x rules) eqn:HP; [|discriminate]. intros [= <-].
  split; [destruct d; [reflexivity|discriminate]|]. split.
  - apply existsb_exists in HP. destruct HP as (r & Hr & HP). destruct r; try discriminate; rewrite forallb_forall in HP; eauto 8.
  - cbn [pc_letters pc_word pc_space]. split; [|split]; intros c; rewrite ?in_app_iff, ?class_In; reflexivity.
Qed.
Lemma punct_none u : build_punct d x rules = None -> ~ punctuates d x rules u.
Proof.
  unfold build_punct. intros E (D & (chars & dots & k & H & A) & _). rewrite D in E. cbn [is_backward negb andb] in E.
  assert (HP : has_punct x rules = true); [|rewrite HP in E; discriminate]. apply existsb_exists.
  destruct H as [H|H]; eexists; (split; [exact H|]); apply forallb_forall; exact A.
Qed.
Lemma punct_same u u' : punctuates d x rules u -> punctuates d x rules u' ->
  same_chars (pc_letters u) (pc_letters u') /\ same_chars (pc_word u) (pc_word u') /\ same_chars (pc_space u) (pc_space u').
Proof.
  intros (_ & _ & A1 & A2 & A3) (_ & _ & B1 & B2 & B3). split; [|split]; intros c; rewrite ?A1, ?A2, ?A3, ?B1, ?B2, ?B3; reflexivity.
Qed.
Lemma caps_built u : build_caps is_alphabetic d x rules = Some u -> capital_cells is_alphabetic d x rules u.
Proof.
  unfold build_caps. intros E.
  assert (D : d = Backward) by (destruct d; [discriminate E|reflexivity]).
  pose proof (backward_dots_spec capsletter D) as S1. pose proof (backward_dots_spec begcapsword D) as S2. pose proof (backward_dots_spec endcapsword D) as S3.
  unfold capsletter, begcapsword, endcapsword in S1, S2, S3. split; [exact D|].
  destruct (backward_dots d rules (fun r => match r with RCapsletter dots _ => Some dots | _ => None end)) as [a|];
  destruct (backward_dots d rules (fun r => match r with RBegcapsword dots _ => Some dots | _ => None end)) as [b|]; try discriminate; injection E as <-;
  cbn [bc_letter bc_begword bc_endword bc_cells]; (split; [exact S1|]); (split; [exact S2|]); (split; [exact S3|]);
  (split; [first [left; discriminate|right; discriminate]|]); intros c; apply letter_cells_spec; exact D.
Qed.
Lemma caps_none u : build_caps is_alphabetic d x rules = None -> ~ capital_cells is_alphabetic d x rules u.
Proof.
  unfold build_caps. intros E (D & S1 & S2 & _ & N & _).
  pose proof (backward_dots_spec capsletter D) as T1. pose proof (backward_dots_spec begcapsword D) as T2.
  pose proof (sign_cells_unique _ _ _ S1 T1) as U1. pose proof (sign_cells_unique _ _ _ S2 T2) as U2. unfold capsletter, begcapsword in U1, U2.
  rewrite <- U1, <- U2 in E. destruct (bc_letter u), (bc_begword u); try discriminate. destruct N as [N|N]; apply N; reflexivity.
Qed.
Lemma caps_same u u' ts : capital_cells is_alphabetic d x rules u -> capital_cells is_alphabetic d x rules u' -> caps_read u ts -> caps_read u' ts.
Proof.
  intros (_ & S1 & S2 & S3 & _ & C) (_ & T1 & T2 & T3 & _ & C').
  apply caps_read_ext; try (eapply sign_cells_unique; eauto). intros c. rewrite C, C'. reflexivity.
Qed.
Lemma number_built u : build_number is_alphabetic d x rules = Some u -> digit_signs is_alphabetic d x rules u.
Proof.
  unfold build_number. intros E.
  assert (D : d = Backward) by (destruct d; [discriminate E|reflexivity]).
  pose proof (backward_dots_spec numsign D) as S1. pose proof (backward_dots_spec nonumsign D) as S2.
  unfold numsign, nonumsign in S1, S2. split; [exact D|].
  destruct (backward_dots d rules (fun r => match r with RNumsign dots => Some dots | _ => None end)) as [a|]; try discriminate; injection E as <-.
  cbn [bn_sign bn_end bn_digits bn_letters]. split; [exact S1|]. split; [discriminate|]. split; [exact S2|].
  split; intros c; [apply digit_cells_spec|apply letter_cells_spec]; exact D.
Qed.
Lemma number_none u : build_number is_alphabetic d x rules = None -> ~ digit_signs is_alphabetic d x rules u.
Proof.
  unfold build_number. intros E (D & S1 & N & _). pose proof (backward_dots_spec numsign D) as T1.
  pose proof (sign_cells_unique _ _ _ S1 T1) as U1. unfold numsign in U1. rewrite <- U1 in E. destruct (bn_sign u); [discriminate|]. apply N. reflexivity.
Qed.
Lemma number_same u u' ts bf inn : digit_signs is_alphabetic d x rules u -> digit_signs is_alphabetic d x rules u' ->
  number_read u bf inn ts -> number_read u' bf inn ts.
Proof.
  intros (_ & S1 & _ & S2 & C & L) (_ & T1 & _ & T2 & C' & L').
  apply number_read_ext; try (eapply sign_cells_unique; eauto); intros c; rewrite ?C, ?C', ?L, ?L'; reflexivity.
Qed.

(** a compiled table has read its dictionaries *)
Lemma fold2_dictionaries l : forall b b', compile_fold (compile_step2 compat read_dictionary d x rules) b l = TOk b' ->
  forall path, In (RIncludeHyphenation path) l -> exists h, read_dictionary path = TOk h.
Proof.
  induction l as [|r l IH]; intros b b'; [intros _ p []|]. cbn [compile_fold].
  destruct (compile_step2 compat read_dictionary d x rules b r) as [b1| |] eqn:E; try discriminate. cbn [tbind]. intros F path [->|I]; [|eapply IH; eauto].
  cbn [compile_step2] in E. destruct (read_dictionary path) as [h| |]; [eauto|discriminate..].
Qed.
Lemma dictionaries_present p : compiled compat read_dictionary d x rules p ->
  forall path, In (RIncludeHyphenation path) rules -> exists h, read_dictionary path = TOk h.
Proof.
  intros (p0 & E & _). unfold primary_compile in E. destruct (compile_fold _ builder_new rules) as [b1| |]; try discriminate. cbn [tbind] in E.
  destruct (compile_fold (compile_step2 compat read_dictionary d x rules) b1 rules) as [b2| |] eqn:E2; try discriminate. eapply fold2_dictionaries; eauto.
Qed.
Lemma hyphen_built p h letters : compiled compat read_dictionary d x rules p ->
  build_hyphen read_dictionary d x rules = Some (h, letters) -> hyphenates read_dictionary d x rules h letters.
Proof.
  intros C. unfold build_hyphen. destruct (is_backward d) eqn:BW; [discriminate|].
  destruct (last_some rules _) as [h'|] eqn:E; [|discriminate]. intros [= -> <-]. split; [destruct d; [reflexivity|discriminate]|].
  split; [|intros c; apply class_In]. apply last_with_iff in E. destruct E as (r & l1 & l2 & Er & F & A). destruct r; try discriminate.
  destruct (read_dictionary path) as [h''| |] eqn:R; try discriminate. injection F as ->. eexists. exists path. split; [|exact R].
  exists l1, l2. split; [exact Er|]. split; [reflexivity|]. intros r' I. specialize (A r' I). destruct r'; try reflexivity.
  destruct (dictionaries_present p C path0) as (h0 & R0); [rewrite Er; apply in_or_app; right; right; exact I|]. rewrite R0 in A. discriminate.
Qed.
Lemma hyphen_none h letters : build_hyphen read_dictionary d x rules = None -> ~ hyphenates read_dictionary d x rules h letters.
Proof.
  unfold build_hyphen. intros E (D & (r & path & (l1 & l2 & Er & F & A) & R) & _). rewrite D in E. cbn [is_backward] in E.
  destruct (last_some rules _) as [h'|] eqn:EL; [discriminate|]. rewrite last_some_none in EL. specialize (EL r).
  assert (I : In r rules) by (rewrite Er; apply in_or_app; right; left; reflexivity). specialize (EL I). destruct r; try discriminate. injection F as ->. cbn in EL. rewrite R in EL. discriminate.
Qed.
Lemma hyphen_same h l h' l' : hyphenates read_dictionary d x rules h l -> hyphenates read_dictionary d x rules h' l' -> h = h' /\ same_chars l l'.
Proof.
  intros (_ & (r & path & W & R) & C) (_ & (r' & path' & W' & R') & C'). destruct (last_with_unique _ _ _ _ _ _ W W') as [_ <-].
  split; [congruence|]. intros c. rewrite C, C'. reflexivity.
Qed.

(** ** All together *)
Lemma table_restrictions p chars spans limits : compiled compat read_dictionary d x rules p ->
  restrictions (build_constrainers is_alphabetic read_dictionary d x rules) chars spans limits ->
  table_restricts is_alphabetic read_dictionary d x rules chars spans limits.
Proof.
  intros C [R1 R2 R3 R4 R5 R6 R7 R8]. cbn [build_constrainers kc_numeric kc_caps kc_number kc_hyphen kc_punct] in *.
  constructor; intros q.
  - rewrite R1. split; [intros (u & E & I); exists u; split; [apply numbers_built, E|exact I]|]. intros (u & T & I).
    destruct (build_numeric x rules) as [u'|] eqn:E; [|destruct (numbers_none u E T)]. exists u'. split; [reflexivity|]. eapply numbers_same; [exact T|apply numbers_built, E|exact I].
  - apply R2.
  - rewrite R3. split; [intros (u & ts & E & I); exists u, ts; split; [apply caps_built, E|exact I]|]. intros (u & ts & T & I & J).
    destruct (build_caps is_alphabetic d x rules) as [u'|] eqn:E; [|destruct (caps_none u E T)]. exists u', ts. split; [reflexivity|]. split; [|exact J]. eapply caps_same; [exact T|apply caps_built, E|exact I].
  - rewrite R4. split; [intros (u & ts & E & I); exists u, ts; split; [apply caps_built, E|exact I]|]. intros (u & ts & T & I & J).
    destruct (build_caps is_alphabetic d x rules) as [u'|] eqn:E; [|destruct (caps_none u E T)]. exists u', ts. split; [reflexivity|]. split; [|exact J]. eapply caps_same; [exact T|apply caps_built, E|exact I].
  - rewrite R5. split; [intros (u & ts & E & I); exists u, ts; split; [apply number_built, E|exact I]|]. intros (u & ts & T & I & J).
    destruct (build_number is_alphabetic d x rules) as [u'|] eqn:E; [|destruct (number_none u E T)]. exists u', ts. split; [reflexivity|]. split; [|exact J]. eapply number_same; [exact T|apply number_built, E|exact I].
  - rewrite R6. split; [intros (h & l & E & I); exists h, l; split; [eapply hyphen_built; eauto|exact I]|]. intros (h & l & T & I).
    destruct (build_hyphen read_dictionary d x rules) as [[h' l']|] eqn:E; [|destruct (hyphen_none h l E T)]. exists h', l'. split; [reflexivity|].
    destruct (hyphen_same _ _ _ _ T (hyphen_built p h' l' C E)) as [<- S]. eapply break_behind_ext; eauto.
  - rewrite R7. split; [intros (u & E & I); exists u; split; [apply punct_built, E|exact I]|]. intros (u & T & I & J).
    destruct (build_punct d x rules) as [u'|] eqn:E; [|destruct (punct_none u E T)]. exists u'. split; [reflexivity|].
    destruct (punct_same _ _ T (punct_built _ E)) as (S1 & S2 & S3). split; [rewrite <- (before_in_ext _ _ _ _ S1); exact I|]. eapply word_follows_ext; eauto.
  - rewrite R8. split; [intros (u & E & I); exists u; split; [apply punct_built, E|exact I]|]. intros (u & T & I & J & Q).
    destruct (build_punct d x rules) as [u'|] eqn:E; [|destruct (punct_none u E T)]. exists u'. split; [reflexivity|].
    destruct (punct_same _ _ T (punct_built _ E)) as (S1 & S2 & S3). split; [rewrite <- (at_in_ext _ _ _ _ S1); exact I|]. split; [eapply word_precedes_ext; eauto|exact Q].
Qed.
End Setup.

(** ** compbrl *)
Lemma scan_adds k chars fuel : forall pos spans spans', scan_loop k chars fuel pos spans = Ok spans' ->
  exists added, spans' = spans ++ added /\ NoDup added /\ forall s, In s spans -> ~ In s added.
Proof.
  induction fuel as [|f IH]; intros pos spans spans'; [discriminate|]. cbn [scan_loop]. destruct (Nat.leb (length chars) pos).
  - intros [= <-]. exists []. rewrite app_nil_r. split; [reflexivity|]. split; [constructor|auto].
  - destruct (existsb (starts_with (skipn pos chars)) (sc_triggers k)); [|apply IH].
    match goal with |- context [existsb (span_eqb ?v) spans] => set (sp0 := v) end. destruct (existsb (span_eqb sp0) spans) eqn:EX; [apply IH|].
    intros H. destruct (IH _ _ _ H) as (added & -> & ND & DJ). exists (sp0 :: added). rewrite <- app_assoc. split; [reflexivity|]. split.
    + constructor; [|exact ND]. apply DJ. apply in_app_iff. right. left. reflexivity.
    + intros s Hs [<-|H']; [|apply (DJ s); [apply in_app_iff; auto|exact H']].
      assert (X : existsb (span_eqb sp0) spans = true) by (apply existsb_exists; exists sp0; split; [exact Hs|apply span_eqb_spec; reflexivity]). congruence.
Qed.

Section Compbrl.
Variable is_alphabetic : char -> bool.
Variable compat : bool.
Variable read_dictionary : str -> tres hyph.
Variable d : direction.
Variable x : context.
Variable rules : list rule.
Variable m : main_table.
Hypothesis B : main_built is_alphabetic compat read_dictionary d x rules m.
Hypothesis DR : dictionaries_read read_dictionary.

Lemma scanner_built : mt_scanner m = build_scanner x rules.
Proof. apply B. Qed.
Lemma triggers_In t : In t (compbrl_triggers rules) <-> exists k, In (RCompbrl t k) rules.
Proof.
  unfold compbrl_triggers. rewrite in_flat_map. split.
  - intros (r & Hr & H). destruct r; try destruct H as []. subst. eauto. destruct H.
  - intros (k & H). exists (RCompbrl t k). split; [exact H|left; reflexivity].
Qed.
Lemma trigger_iff k input p : mt_scanner m = Some k -> (trigger_at k input p <-> compbrl_at rules input p).
Proof.
  rewrite scanner_built. unfold build_scanner. intros E. assert (ET : sc_triggers k = compbrl_triggers rules) by (destruct (compbrl_triggers rules); [discriminate|injection E as <-; reflexivity]).
  unfold trigger_at, compbrl_at. rewrite ET. split.
  - intros (t & r & H1 & H2 & H3). apply triggers_In in H1. destruct H1 as (q & H1). split; [exact H3|]. exists t, q, r. auto.
  - intros (H3 & t & q & r & H1 & H2). exists t, r. split; [apply triggers_In; eauto|auto].
Qed.
Lemma space_iff k input p : mt_scanner m = Some k -> (space_at k input p <-> is_space x input p).
Proof.
  rewrite scanner_built. unfold build_scanner. intros E. assert (ET : sc_classes k = x_chars x) by (destruct (compbrl_triggers rules); [discriminate|injection E as <-; reflexivity]).
  unfold space_at, is_space_at, is_space, cls_is_whitespace. rewrite ET. split.
  - destruct (nth_error input p) as [c|]; [eauto|discriminate].
  - intros (c & -> & H). exact H.
Qed.
Lemma no_scanner input p : mt_scanner m = None -> ~ compbrl_at rules input p.
Proof.
  rewrite scanner_built. unfold build_scanner. destruct (compbrl_triggers rules) as [|t ts] eqn:E; [|discriminate].
  intros _ (_ & t & k & r & H & _). assert (X : In t (compbrl_triggers rules)) by (apply triggers_In; eauto). rewrite E in X. destruct X.
Qed.

Lemma marked_ok input spans : (forall p, compbrl_at rules input p -> ~ is_space x input p) ->
  exists sp, enriched m input spans = Ok sp /\ marked_spans x rules input spans sp.
Proof.
  intros N. unfold enriched, marked_spans. destruct (mt_scanner m) as [k|] eqn:EK.
  - destruct (enrich_spec k input spans) as (added & E & H).
    { intros p T S. apply (N p); [eapply trigger_iff; eauto|eapply space_iff; eauto]. }
    destruct (scan_adds _ _ _ _ _ _ E) as (added' & EA & ND & DJ). apply app_inv_head in EA. subst added'.
    exists (spans ++ added). split; [exact E|]. exists added. split; [reflexivity|]. split; [exact ND|].
    assert (TW : forall s, triggered k input 0 s <-> compbrl_word x rules input s).
    { intros s. unfold triggered, compbrl_word, text_word, whole_word. split.
      + intros (H1 & (H2 & H3 & H4 & H5 & H6) & p & _ & H7 & H8). split; [exact H1|]. split.
        * split; [exact H2|]. split; [exact H3|]. split; [intros q Hq X; apply (H4 q Hq); eapply space_iff; eauto|].
          split; [destruct H5 as [H5|H5]|destruct H6 as [H6|H6]]; auto; right; eapply space_iff; eauto.
        * exists p. split; [exact H7|]. eapply trigger_iff; eauto.
      + intros (H1 & (H2 & H3 & H4 & H5 & H6) & p & H7 & H8). split; [exact H1|]. split.
        * split; [exact H2|]. split; [exact H3|]. split; [intros q Hq X; apply (H4 q Hq); eapply space_iff; eauto|].
          split; [destruct H5 as [H5|H5]|destruct H6 as [H6|H6]]; auto; right; eapply space_iff; eauto.
        * exists p. split; [lia|]. split; [exact H7|]. eapply trigger_iff; eauto. }
    intros s. specialize (H s). rewrite in_app_iff, TW in H. split; [intros I; split; [specialize (DJ s); tauto|intros I'; apply (DJ s I' I)]|intros [W NI]; tauto].
  - exists spans. split; [reflexivity|]. exists []. rewrite app_nil_r. split; [reflexivity|]. split; [constructor|]. intros s. split; [intros []|].
    intros [(_ & _ & p & _ & H) _]. destruct (no_scanner input p EK H).
Qed.
Lemma marked_enriched input spans sp : enriched m input spans = Ok sp ->
  (forall p, compbrl_at rules input p -> ~ is_space x input p) /\ marked_spans x rules input spans sp.
Proof.
  intros E. assert (N : forall p, compbrl_at rules input p -> ~ is_space x input p).
  { intros p T S. unfold enriched in E. destruct (mt_scanner m) as [k|] eqn:EK; [|destruct (no_scanner input p EK T)].
    unfold enrich in E. rewrite (scan_diverges k input) in E; [discriminate|]. exists p. split; [lia|]. split; [eapply trigger_iff; eauto|eapply space_iff; eauto]. }
  split; [exact N|]. destruct (marked_ok input spans N) as (sp' & E' & M). rewrite E in E'. injection E' as <-. exact M.
Qed.
Lemma marked_positions input spans sp : marked_spans x rules input spans sp ->
  forall p, in_comp_span sp p <-> in_computer_braille x rules input spans p.
Proof.
  intros (added & -> & _ & A) p. unfold in_comp_span, in_computer_braille. split.
  - intros (s & H & C & L). apply in_app_iff in H. destruct H as [H|H]; [left; exists s; auto|]. apply A in H. destruct H as [H _]. right. exists s. auto.
  - intros [(s & H & C & L)|(s & W & L)].
    + exists s. split; [apply in_app_iff; auto|auto].
    + exists s. split; [|split; [apply W|exact L]]. apply in_app_iff. destruct (existsb (span_eqb s) spans) eqn:X.
      * apply existsb_exists in X. destruct X as (s' & I & X). apply span_eqb_spec in X. subst s'. auto.
      * right. apply A. split; [exact W|]. intros I. assert (Y : existsb (span_eqb s) spans = true) by (apply existsb_exists; exists s; split; [exact I|apply span_eqb_spec; reflexivity]). congruence.
Qed.
Lemma on_words input : (forall p, compbrl_at rules input p -> ~ is_space x input p) -> triggers_on_words m input.
Proof. intros N k p EK T S. apply (N p); [eapply trigger_iff; eauto|eapply space_iff; eauto]. Qed.
End Compbrl.
