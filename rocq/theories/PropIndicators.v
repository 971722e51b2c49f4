(** C25 - C30: the signs put into a translation. *)
From Coq Require Import Permutation Sorted.
From Verif Require Import Base BaseProofs RuleModel TranslationModel TranslationProofs TableModel TableProofs RegexpModel
  TrieModel TrieProofs PropTrie HyphenationModel LoopModel CompileModel CompileSpec
  CompileProofs MainTable ConstraintModel ConstraintSpec ConstraintProofs IndicatorModel IndicatorProofs
  CapsSpec CapsProofs CapsFacts EmphSpec EmphProofs MainSpec TraceSpec MainPass StepFacts TraceProofs SignSpec SignProofs SetupSpec SetupProofs PropMain.

Lemma signs_here_In p l t : In t (signs_here p l) <-> In (p, t) l.
Proof.
  unfold signs_here, here. rewrite in_map_iff. split.
  - intros ([q t'] & <- & H). apply filter_In in H. destruct H as [H E]. apply Nat.eqb_eq in E. cbn in *. subst q. exact H.
  - intros H. exists (p, t). split; [reflexivity|]. apply filter_In. split; [exact H|]. cbn. apply Nat.eqb_refl.
Qed.

Lemma last_some_ext {A} rules (f g : rule -> option A) : (forall r, f r = g r) -> last_some rules f = last_some rules g.
Proof. intros H. unfold last_some. generalize (@None A). induction rules as [|r l IH]; intros a; cbn [fold_left]; [reflexivity|]. rewrite H. apply IH. Qed.
Lemma last_sign rules (f : rule -> option str) t :
  last_some rules (fun r => match f r with Some dots => Some (sign dots r) | None => None end) = Some t <->
  exists r dots, last_with rules f r dots /\ t = sign dots r.
Proof.
  rewrite last_with_iff. split.
  - intros (r & l1 & l2 & Er & En & EA). destruct (f r) as [dots|] eqn:Ef; [|discriminate]. injection En as <-. exists r, dots. split; [|reflexivity].
    exists l1, l2. split; [exact Er|]. split; [exact Ef|]. intros r' Hr. specialize (EA r' Hr). destruct (f r'); [discriminate|reflexivity].
  - intros (r & dots & (l1 & l2 & Er & En & EA) & ->). exists r, l1, l2. split; [exact Er|]. split; [rewrite En; reflexivity|].
    intros r' Hr. rewrite (EA r' Hr). reflexivity.
Qed.
Lemma last_rule_with rules f dots r : last_rule rules f = Some (dots, r) <-> last_with rules f r dots.
Proof.
  unfold last_rule. rewrite last_with_iff. split.
  - intros (r' & l1 & l2 & Er & En & EA). destruct (f r') as [z|] eqn:Ef; [|discriminate]. injection En as -> ->.
    exists l1, l2. split; [exact Er|]. split; [exact Ef|]. intros q Hq. specialize (EA q Hq). destruct (f q); [discriminate|reflexivity].
  - intros (l1 & l2 & Er & En & EA). exists r, l1, l2. split; [exact Er|]. split; [rewrite En; reflexivity|].
    intros q Hq. rewrite (EA q Hq). reflexivity.
Qed.
Lemma last_rule_none rules f : last_rule rules f = None -> forall r dots, ~ last_with rules f r dots.
Proof. intros H r dots L. apply last_rule_with in L. congruence. Qed.

Section Main.
Variable is_alphabetic : char -> bool.
Variable compat : bool.
Variable read_dictionary : str -> tres hyph.
Variable d : direction.
Variable x : context.
Variable rules : list rule.
Variable lower upper : char -> list char.
Variable sort : list event -> res (list event).
Variable m : main_table.
Hypothesis B : main_built is_alphabetic compat read_dictionary d x rules m.
Hypothesis DR : dictionaries_read read_dictionary.
Hypothesis SR : sort_rearranges sort.
Notation trace := (main_trace lower upper sort m).
Notation i := (mt_indicators m).

Lemma family_signs input spans out : trace input spans = Ok out -> exists sp em caps,
  enriched m input spans = Ok sp /\
  emph_precompute sort (in_emph i) input sp = Ok em /\ caps_placed i input = Ok caps /\
  forall f p, boundary out p -> signs_of f out p = signs_here p (source lower m input sp em caps f).
Proof.
  intros E. destruct (signs_of_position _ _ _ _ _ _ lower upper sort m B DR SR input spans out E) as (sp & em & caps & E1 & E2 & E3 & F).
  exists sp, em, caps. split; [exact E1|]. split; [exact E2|]. split; [exact E3|]. intros f p BD.
  destruct (F p) as [[H _]|[_ H]]; [|contradiction]. unfold signs_of. rewrite H.
  eapply signs_at_of; eauto.
Qed.

(** ** C26 *)
(** The signs put in at a position are those of computer braille, emphasis, numbers, letters,
    capitals and nocontract, in this order; which ones these are is what C25 and C27 to C30
    say. *)
Theorem C26_signs_of_a_position : forall input spans out, trace input spans = Ok out ->
  forall p, signs_put out p =
    flat_map (fun f => signs_of f out p) [Computer; Emphasis; Number; Letter; Capitals; Nocontract].
Proof.
  intros input spans out E p. destruct (signs_of_position _ _ _ _ _ _ lower upper sort m B DR SR input spans out E) as (sp & em & caps & E1 & E2 & E3 & F).
  destruct (F p) as [[H BD]|[H _]]; [|unfold signs_of; rewrite H; reflexivity].
  destruct (family_signs _ _ _ E) as (sp' & em' & caps' & E1' & E2' & E3' & F'). rewrite E1 in E1'. injection E1' as <-. rewrite E2 in E2'. injection E2' as <-.
  rewrite E3 in E3'. injection E3' as <-. cbn [flat_map]. rewrite !F' by exact BD. rewrite H, app_nil_r. reflexivity.
Qed.

(** ** C25 *)
(** Where a piece starts, the number sign is written iff a number starts there, and the
    no-number sign iff a number ended right before and one of the numericnocontchars
    follows; never both. *)
Theorem C25_number_signs : forall input spans out, trace input spans = Ok out ->
  exists u, number_chars x rules u /\ forall p, boundary out p ->
    length (signs_of Number out p) <= 1 /\
    forall t, In t (signs_of Number out p) <->
      (exists r dots, last_with rules numsign r dots /\ t = sign dots r /\ number_starts u input p) \/
      (exists r dots r' dots' r'' cs c,
         last_with rules numsign r' dots' /\ last_with rules nonumsign r dots /\ t = sign dots r /\
         number_ended u input p /\
         last_with rules nocontchars r'' cs /\ nth_error input p = Some c /\ In c cs).
Proof.
  intros input spans out E. destruct (family_signs _ _ _ E) as (sp & em & caps & _ & _ & _ & F).
  set (u := mk_numeric_chars (digits x) (extra_numeric rules) (mid_numeric rules)).
  exists u. split; [apply numeric_list_spec|].
  intros p BD. rewrite (F Number p BD). cbn [source]. rewrite (built_numeric _ _ _ _ _ _ _ B).
  unfold build_numeric_ind. destruct (last_some rules _) as [t0|] eqn:EN.
  2: { cbn [opt_placed signs_here here filter map length In]. split; [lia|]. intros t.
       assert (NO : forall r dots, ~ last_with rules numsign r dots).
       { intros r dots (l1 & l2 & Er & En & _). rewrite last_some_none in EN. specialize (EN r). rewrite Er in EN.
         specialize (EN (in_elt _ _ _)). unfold numsign in En. destruct r; discriminate. }
       split; [intros []|]. intros [(r & dots & L & _)|(r & dots & r' & dots' & _ & _ & _ & L & _)]; eapply NO; eauto. }
  assert (RS : exists r dots, last_with rules numsign r dots /\ t0 = sign dots r).
  { apply last_with_iff in EN. destruct EN as (r & l1 & l2 & Er & En & EA). destruct r; try discriminate. injection En as <-.
    eexists; eexists; split; [|reflexivity]. exists l1, l2. split; [exact Er|]. split; [reflexivity|]. intros r' Hr. specialize (EA r' Hr). destruct r'; try discriminate; reflexivity. }
  destruct RS as (r0 & dots0 & L0 & ->).
  assert (UQ : forall (f : rule -> option str) r1 d1 r2 d2, last_with rules f r1 d1 -> last_with rules f r2 d2 -> sign d1 r1 = sign d2 r2).
  { intros f r1 d1 r2 d2 (a1 & b1 & X1 & Y1 & Z1) (a2 & b2 & X2 & Y2 & Z2). rewrite X1 in X2. clear X1.
    assert (Q : r1 = r2 /\ d1 = d2); [|destruct Q; subst; reflexivity].
    apply app_eq_cases in X2. destruct X2 as [(e & -> & X)|(e & -> & X)].
    - destruct e as [|e0 e]; injection X as <- X; [split; congruence|]. subst b1. specialize (Z1 r2 (in_elt _ _ _)). congruence.
    - destruct e as [|e0 e]; injection X as -> X; [split; congruence|]. subst b2. specialize (Z2 r1 (in_elt _ _ _)). congruence. }
  destruct (is_empty (digits x)) eqn:ED.
  { cbn [opt_placed signs_here here filter map length In]. split; [lia|]. intros t.
    assert (ND : forall q c, ~ (nth_error input q = Some c /\ In c (nu_digits u))).
    { intros q c (_ & H). cbn [u nu_digits] in H. destruct (digits x); [destruct H|discriminate]. }
    split; [intros []|]. intros [(r & dots & _ & _ & ((c & H) & _))|(r & dots & r' & dots' & r'' & cs & c & _ & _ & _ & (_ & (s & _ & (c' & H) & _) & _) & _)].
    - exact (ND p c H).
    - exact (ND s c' H). }
  cbn [opt_placed]. match goal with |- context [numeric_precompute ?v input] => set (ui := v) end.
  split.
  - destruct (numeric_loop_sorted ui input false 0) as [SS _]. change (numeric_loop ui false 0 input) with (numeric_precompute ui input) in SS.
    unfold signs_here, here. rewrite map_length. revert SS. generalize (numeric_precompute ui input). clear. intros l SS.
    induction SS as [|y l SS IH H]; cbn [filter length]; [lia|]. destruct (Nat.eqb_spec (fst y) p) as [EQ|NE]; [|exact IH].
    cbn [length]. assert (Z : filter (fun x => Nat.eqb (fst x) p) l = []); [|rewrite Z; cbn; lia].
    apply filter_none. intros z Hz. rewrite Forall_forall in H. specialize (H z Hz). apply Nat.eqb_neq. lia.
  - intros t. rewrite signs_here_In, numeric_signs_spec. cbn [ui ni_chars ni_start ni_end ni_stop]. fold u. split.
    + intros [[-> NS]|(EE & NE & ST)]; [left; eauto|right].
      apply last_with_iff in EE. destruct EE as (r & l1 & l2 & Er & En & EA). destruct r; try discriminate. injection En as <-.
      destruct ST as (c & EC & HC). destruct (last_some rules _) as [cs|] eqn:ES in HC; [|destruct HC].
      apply last_with_iff in ES. destruct ES as (r'' & l3 & l4 & Er'' & En'' & EA''). destruct r''; try discriminate. injection En'' as <-.
      do 7 eexists. split; [exact L0|]. split; [exists l1, l2; split; [exact Er|]; split; [reflexivity|]; intros r' Hr; specialize (EA r' Hr); destruct r'; try discriminate; reflexivity|].
      split; [reflexivity|]. split; [exact NE|]. split; [exists l3, l4; split; [exact Er''|]; split; [reflexivity|]; intros r' Hr; specialize (EA'' r' Hr); destruct r'; try discriminate; reflexivity|]. eauto.
    + intros [(r & dots & L & -> & NS)|(r & dots & r' & dots' & r'' & cs & c & _ & LN & -> & NE & LC & EC & HC)].
      * left. split; [eapply UQ; eauto|exact NS].
      * right. split; [|split; [exact NE|]].
        -- apply last_with_iff. exists r. destruct LN as (l1 & l2 & Er & En & EA). destruct r; try discriminate. injection En as <-. exists l1, l2.
           split; [exact Er|]. split; [reflexivity|]. intros q Hq. specialize (EA q Hq). destruct q; try discriminate; reflexivity.
        -- exists c. split; [exact EC|]. assert (ES : last_some rules (fun r => match r with RNumericnocontchars cs => Some cs | _ => None end) = Some cs).
           { apply last_with_iff. exists r''. destruct LC as (l1 & l2 & Er & En & EA). destruct r''; try discriminate. injection En as <-. exists l1, l2.
             split; [exact Er|]. split; [reflexivity|]. intros q Hq. specialize (EA q Hq). destruct q; try discriminate; reflexivity. }
           rewrite ES. exact HC.
Qed.

(** ** C30 *)
(** Where a piece starts, begcomp and endcomp are written once for each non-empty span - of the caller's,
    and of the words marked by compbrl - that starts and ends there, and for nothing else; endcomp only if the table has begcomp. *)
Theorem C30_computer_braille_signs : forall input spans out, trace input spans = Ok out ->
  exists sp, marked_spans x rules input spans sp /\ forall p, boundary out p ->
  (forall t, In t (signs_of Computer out p) <->
     exists s a e r dots, In s sp /\ comp_from_to (length input) s a e /\ last_with rules begcomp r dots /\
       ((p = a /\ t = sign dots r) \/
        (p = e /\ exists r' dots', last_with rules endcomp r' dots' /\ t = sign dots' r'))) /\
  (forall r dots r' dots', last_with rules begcomp r dots -> last_with rules endcomp r' dots' ->
     exists hits, Permutation hits (signs_of Computer out p) /\
       hits = flat_map (fun s => if (str_eqb (sp_class s) computer_braille && Nat.ltb (sp_start s) (Nat.min (sp_end s) (length input)))%bool
                                 then (if Nat.eqb (sp_start s) p then [sign dots r] else []) ++
                                      (if Nat.eqb (Nat.min (sp_end s) (length input)) p then [sign dots' r'] else [])
                                 else []) sp).
Proof.
  intros input spans out E. destruct (family_signs _ _ _ E) as (sp & em & caps & ES' & _ & _ & F).
  exists sp. split; [eapply marked_enriched; eauto|]. intros p BD. rewrite (F Computer p BD). cbn [source]. rewrite (built_comp _ _ _ _ _ _ _ B).
  unfold build_comp_ind.
  rewrite (last_some_ext rules _ (fun r => match begcomp r with Some dots => Some (sign dots r) | None => None end)) by (intros []; reflexivity).
  rewrite (last_some_ext rules (fun r => match r with REndcomp dots _ => Some (sign dots r) | _ => None end) (fun r => match endcomp r with Some dots => Some (sign dots r) | None => None end)) by (intros []; reflexivity).
  destruct (last_some rules (fun r => match begcomp r with Some dots => Some (sign dots r) | None => None end)) as [t0|] eqn:EB.
  - apply last_sign in EB. destruct EB as (r0 & dots0 & L0 & ->). cbn [opt_placed]. split.
    + intros t. rewrite signs_here_In, comp_precompute_spec. cbn [ci_beg ci_end]. split.
      * intros (s & a & e & Hs & C & H). exists s, a, e, r0, dots0. split; [exact Hs|]. split; [exact C|]. split; [exact L0|].
        destruct H as [H|[-> H]]; [left; exact H|right; split; [reflexivity|]]. apply last_sign in H. exact H.
      * intros (s & a & e & r & dots & Hs & C & L & H). exists s, a, e. split; [exact Hs|]. split; [exact C|].
        destruct (last_with_unique _ _ _ _ _ _ L0 L) as [<- <-].
        destruct H as [H|[-> H]]; [left; exact H|right; split; [reflexivity|]]. apply last_sign. exact H.
    + intros r dots r' dots' L L'. destruct (last_with_unique _ _ _ _ _ _ L0 L) as [<- <-].
      eexists. split; [|reflexivity]. unfold signs_here. unfold comp_precompute. rewrite sort_pos_here. unfold here.
      assert (EE : last_some rules (fun r => match endcomp r with Some dots => Some (sign dots r) | None => None end) = Some (sign dots' r')) by (apply last_sign; eauto).
      cbn [ci_beg ci_end]. rewrite EE. clear. induction sp as [|s l IH]; cbn [flat_map]; [constructor|].
      rewrite filter_app, map_app. apply Permutation_app; [|exact IH]. destruct (str_eqb (sp_class s) computer_braille); cbn [andb]; [|constructor].
      destruct (Nat.leb_spec (Nat.min (sp_end s) (length input)) (sp_start s)) as [G|G];
        destruct (Nat.ltb_spec (sp_start s) (Nat.min (sp_end s) (length input))) as [G'|G']; try lia; [constructor|].
      cbn [filter fst]. destruct (Nat.eqb (sp_start s) p); destruct (Nat.eqb (Nat.min (sp_end s) (length input)) p); cbn; auto.
  - assert (NO : forall r dots, ~ last_with rules begcomp r dots).
    { intros r dots L. assert (X : last_some rules (fun r => match begcomp r with Some dots => Some (sign dots r) | None => None end) = Some (sign dots r)) by (apply last_sign; eauto). congruence. }
    cbn [opt_placed]. split.
    + intros t. cbn. split; [intros []|]. intros (s & a & e & r & dots & _ & _ & L & _). eapply NO, L.
    + intros r dots r' dots' L. destruct (NO _ _ L).
Qed.

(** ** C29 *)
Lemma letters_of c : In c (flat_map (cls_chars (x_chars x)) [CLetter; CUppercase; CLowercase]) <-> a_letter x c.
Proof. rewrite in_flat_map. unfold a_letter. split; intros (k & Hk & H); exists k; (split; [exact Hk|]); apply class_In; exact H. Qed.
Lemma boundary_of o : neighbour_in (x_chars x) SP o <-> word_boundary x o.
Proof.
  destruct o as [c|]; cbn.
  - split.
    + intros (k & [<-|[<-|[]]] & H); auto.
    + intros [H|H]; eauto.
  - split; auto.
Qed.
Lemma contraction_words input p : contraction_word lower (x_chars x) (contractions rules) input p <-> reads_as_contraction x rules lower input p.
Proof.
  unfold contraction_word, reads_as_contraction.
  split; intros (c & txt & rest & H1 & H2 & H3 & H4 & H5); exists c, txt, rest;
    (split; [apply contractions_In; exact H1|]); (split; [exact H2|]); (split; [exact H3|]); split; apply boundary_of; assumption.
Qed.
(** Where a piece starts, the letter sign is written, once, iff a letter stands alone there
    or a word that reads as a contraction starts there (whose first character is not a
    noletsign one). *)
Theorem C29_letter_signs : forall input spans out, trace input spans = Ok out ->
  forall p, boundary out p ->
    length (signs_of Letter out p) <= 1 /\
    forall t, In t (signs_of Letter out p) <->
      exists r dots, last_with rules letsign r dots /\ t = sign dots r /\
        (stands_alone x rules input p \/
         reads_as_contraction x rules lower input p /\ some_char (nth_error input p) (fun c => ~ noletsign rules c)).
Proof.
  intros input spans out E p BD. destruct (family_signs _ _ _ E) as (sp & em & caps & _ & _ & _ & F).
  rewrite (F Letter p BD). cbn [source]. destruct (built_letter _ _ _ _ _ _ _ B) as (order & li & PO & EL & SL).
  unfold build_letter_ind in EL.
  destruct (last_rule rules _) as [[dots r]|] eqn:LR.
  - assert (LW : last_with rules letsign r dots) by (apply last_rule_with; exact LR).
    destruct (contraction_trie compat x rules order dots r) as [n| |] eqn:TR; try discriminate. cbn [tbind] in EL. injection EL as <-.
    destruct (in_letter i) as [u|]; [|destruct SL]. destruct SL as (SH & E1 & E2 & E3 & E4 & E5 & E6).
    cbn [li_trie li_sign li_letters li_spaces li_never li_after li_before] in *. cbn [opt_placed].
    assert (NV : forall q, at_in input q (li_never u) <-> some_char (nth_error input q) (noletsign rules)).
    { intros q. rewrite E4. unfold at_in, some_char, noletsign, listed. split; intros (c & H1 & H2); exists c; (split; [exact H1|]);
        [apply in_flat_map in H2|apply in_flat_map]; exact H2. }
    split.
    + unfold signs_here, here, letter_precompute. rewrite map_length.
      generalize (fun pos => (isolated_at u input pos || contraction_at lower u input pos)%bool). intros g.
      generalize (length input). intros k. enough (G : forall a, length (filter (fun x0 => fst x0 =? p) (map (fun pos => (pos, li_sign u)) (filter g (List.seq a k)))) <= 1) by apply G.
      assert (GN : forall k a, p < a -> filter (fun x0 => fst x0 =? p) (map (fun pos => (pos, li_sign u)) (filter g (List.seq a k))) = []).
      { clear. induction k as [|k IH]; intros a L; [reflexivity|]. cbn [List.seq filter]. destruct (g a); cbn [map filter fst]; [|apply IH; lia].
        destruct (Nat.eqb_spec a p); [lia|apply IH; lia]. }
      induction k as [|k IH]; intros a; [cbn; lia|]. cbn [List.seq filter]. destruct (g a); cbn [map filter fst]; [|apply IH].
      destruct (Nat.eqb_spec a p) as [->|]; [|apply IH]. rewrite GN by lia. cbn. lia.
    + intros t. rewrite signs_here_In, letter_spec. rewrite E1.
      rewrite (contraction_found lower compat x rules order PO dots r n (li_trie u) TR SH input p), contraction_words.
      assert (ISO : isolated_letter u input p <-> stands_alone x rules input p).
      { unfold isolated_letter, stands_alone. rewrite E2, E3, E4, E5, E6.
        assert (BF : forall P l, (forall c, In c l <-> P c) -> (before_in input p l <-> some_char (char_before input p) P)).
        { intros P l H. rewrite <- has_before. unfold has, some_char. destruct (char_before input p) as [c|]; [rewrite mem_In, H|]; split.
          - eauto. - intros (c' & [= <-] & X). exact X. - discriminate. - intros (c' & X & _). discriminate. }
        assert (AT : forall P l q, (forall c, In c l <-> P c) -> (at_in input q l <-> some_char (nth_error input q) P)).
        { intros P l q H. unfold at_in, some_char. split; intros (c & X & Y); exists c; (split; [exact X|]); apply H; exact Y. }
        assert (LS : forall (f : rule -> list char) c, In c (flat_map f rules) <-> listed rules f c) by (intros; apply in_flat_map).
        rewrite !(AT _ _ _ letters_of), !(AT _ _ _ (LS _)), !(BF _ _ letters_of), (BF _ _ (LS _)), (BF _ _ (fun c => class_In _ _ c)).
        unfold some_char. split.
        - intros ((c & H1 & H2) & H3 & H4 & H5 & H6 & H7 & H8). split; [|split].
          + exists c. split; [exact H1|]. split; [exact H2|]. intros N. apply H3. eauto.
          + intros (c' & X & [Y|[Y|Y]]); [apply H8|apply H7|apply H4]; eauto.
          + intros (c' & X & [Y|Y]); [apply H6|apply H5]; eauto.
        - intros ((c & H1 & H2 & H3) & H4 & H5). split; [eauto|]. split.
          + intros (c' & X & Y). assert (c' = c) by congruence. subst. auto.
          + split; [intros (c' & X & Y); apply H4; eauto|]. split; [intros (c' & X & Y); apply H5; eauto|].
            split; [intros (c' & X & Y); apply H5; eauto|]. split; intros (c' & X & Y); apply H4; eauto. }
      rewrite ISO. split.
      * intros (-> & H). exists r, dots. split; [exact LW|]. split; [reflexivity|]. destruct H as [H|(H1 & H2 & H3)]; [auto|right].
        split; [exact H3|]. rewrite NV in H2. unfold some_char in *. destruct (nth_error input p) as [c|] eqn:EC.
        -- exists c. split; [reflexivity|]. intros N. apply H2. eauto.
        -- apply nth_error_None in EC. lia.
      * intros (r' & dots' & L & -> & H). destruct (last_with_unique _ _ _ _ _ _ LW L) as [<- <-]. split; [reflexivity|].
        destruct H as [H|(H1 & (c & H2 & H3))]; [auto|right]. split; [apply nth_error_Some; congruence|]. split; [|exact H1].
        rewrite NV. intros (c' & X & Y). assert (c' = c) by congruence. subst. auto.
  - injection EL as <-. destruct (in_letter i) as [u|]; [destruct SL|]. cbn. split; [lia|]. intros t. split; [intros []|].
    intros (r & dots & L & _). eapply last_rule_none; eauto.
Qed.
(** The nocontractsign is written, once, where a word that reads as a contraction starts. *)
Theorem C29_nocontract_signs : forall input spans out, trace input spans = Ok out ->
  forall p, boundary out p -> forall t, In t (signs_of Nocontract out p) <->
      exists r dots, last_with rules nocontractsign r dots /\ t = sign dots r /\
        reads_as_contraction x rules lower input p /\ p < length input.
Proof.
  intros input spans out E p BD. destruct (family_signs _ _ _ E) as (sp & em & caps & _ & _ & _ & F).
  rewrite (F Nocontract p BD). cbn [source]. destruct (built_nocont _ _ _ _ _ _ _ B) as (order & li & PO & EL & SL).
  unfold build_nocont_ind in EL.
  destruct (last_rule rules _) as [[dots r]|] eqn:LR.
  - assert (LW : last_with rules nocontractsign r dots) by (apply last_rule_with; exact LR). intros t.
    destruct (is_empty (contractions rules)) eqn:EC.
    + injection EL as <-. destruct (in_nocont i) as [u|]; [destruct SL|]. cbn. split; [intros []|].
      intros (r' & dots' & _ & _ & (c & _ & _ & H & _) & _). apply contractions_In in H. destruct (contractions rules); [destruct H|discriminate].
    + destruct (contraction_trie compat x rules order dots r) as [n| |] eqn:TR; try discriminate. cbn [tbind] in EL. injection EL as <-.
      destruct (in_nocont i) as [u|]; [|destruct SL]. destruct SL as (SH & E1). cbn [no_trie no_sign] in *. cbn [opt_placed].
      rewrite signs_here_In, nocont_spec, E1.
      rewrite (contraction_found lower compat x rules order PO dots r n (no_trie u) TR SH input p), contraction_words. split.
      * intros (-> & H1 & H2). eauto 8.
      * intros (r' & dots' & L & -> & H1 & H2). destruct (last_with_unique _ _ _ _ _ _ LW L) as [<- <-]. auto.
  - injection EL as <-. intros t. destruct (in_nocont i) as [u|]; [destruct SL|]. cbn. split; [intros []|].
    intros (r & dots & L & _). eapply last_rule_none; eauto.
Qed.
End Main.
Print Assumptions C26_signs_of_a_position.
Print Assumptions C25_number_signs.
Print Assumptions C30_computer_braille_signs.
Print Assumptions C29_letter_signs.
Print Assumptions C29_nocontract_signs.
