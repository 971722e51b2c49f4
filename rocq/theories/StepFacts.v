(** Consequences of a derivation: where each piece of a trace comes from. *)
From Coq Require Import Permutation.
From Verif Require Import Base BaseProofs RuleModel TranslationModel TranslationProofs TableModel RegexpModel
  RegexpSpec PatternModel MatchProofs TrieModel TrieProofs PropTrie
  HyphenationModel HyphenationProofs LoopModel LoopProofs MultipassProofs PrimaryProofs PrimaryTrace CompileModel CompileSpec
  CompileProofs MainTable ConstraintModel ConstraintSpec ConstraintProofs IndicatorModel IndicatorProofs
  CapsSpec CapsProofs CapsFacts EmphSpec EmphProofs MainSpec StepProofs TraceSpec MainPass.

(** ** Steps of a derivation *)
Section Derivations.
Variable src : sources.
Variable d : direction.
Variable limits : pos_flags.
Variable input : str.
Lemma derivation_split ts : derivation src d limits input ts -> forall a x b, ts = a ++ x :: b -> best src d limits input a x.
Proof.
  induction 1 as [|c y D IH B]; intros a x b E; [destruct a; discriminate|].
  destruct (app_split _ _ _ _ _ E) as [(b' & E1 & _)|(a' & -> & E2)]; [eapply IH, E1|].
  destruct a' as [|z a']; [|destruct a'; discriminate]. injection E2 as <- _. rewrite app_nil_r. exact B.
Qed.
Lemma derivation_prefix a : forall b, derivation src d limits input (a ++ b) -> derivation src d limits input a.
Proof.
  intros b. revert a. induction b as [|x b IH] using rev_ind; intros a H; [rewrite app_nil_r in H; exact H|].
  rewrite app_assoc in H. apply IH. inversion H as [E|c y D B E].
  - destruct (a ++ b); discriminate.
  - apply app_inj_tail in E. destruct E as [-> _]. exact D.
Qed.
End Derivations.

(** ** Pieces of a trace *)
Section Written.
Variable upper : char -> list char.
Variable d : direction.
Variable limits : pos_flags.
Variable ind : list (list resolved).
Notation written := (written upper d limits ind).
Notation shown := (shown upper d limits).
Lemma cased_fields pos t : r_length (cased upper d limits pos t) = r_length t /\ r_input (cased upper d limits pos t) = r_input t /\
  r_origin (cased upper d limits pos t) = r_origin t /\ r_weight (cased upper d limits pos t) = r_weight t /\
  r_effects (cased upper d limits pos t) = r_effects t.
Proof.
  unfold cased. destruct d; [auto|]. destruct (flag_at k_uppercase limits pos); [cbn; auto|].
  destruct (flag_at k_titlecase limits pos); cbn; auto 6.
Qed.
Lemma shown_fields pos x : r_length (shown pos x) = r_length (snd x) /\ r_input (shown pos x) = r_input (snd x) /\
  r_origin (shown pos x) = r_origin (snd x) /\ r_weight (shown pos x) = r_weight (snd x) /\
  r_effects (shown pos x) = r_effects (snd x).
Proof. destruct x as [[| |] t]; cbn [MainSpec.shown snd]; auto using cased_fields. Qed.
(** a piece is that of a step, or an indication of the position reached *)
Lemma written_split ts : (forall l t, In l ind -> In t l -> r_input t = []) ->
  (forall x, In x ts -> r_length (snd x) = length (r_input (snd x))) ->
  forall pos first a t b, written pos first ts = a ++ t :: b ->
  (exists ts1 x ts2, ts = ts1 ++ x :: ts2 /\ t = shown (pos + reached ts1) x /\ total a = reached ts1) \/
  (exists ts1 ts2 l1 l2, ts = ts1 ++ ts2 /\ nth (pos + reached ts1) ind [] = l1 ++ t :: l2 /\ total a = reached ts1 /\
     (ts1 = [] /\ first = true \/ moved ts1)).
Proof.
  intros NI. assert (Z : forall q, total (nth q ind []) = 0).
  { intros q. apply total_zero. intros t Ht. destruct (nth_in_or_default q ind []) as [H|H]; [eapply NI; eauto|rewrite H in Ht; destruct Ht]. }
  assert (ZL : forall q l1 t l2, nth q ind [] = l1 ++ t :: l2 -> total l1 = 0).
  { intros q l1 t l2 E. pose proof (Z q) as H. rewrite E, total_app in H. lia. }
  induction ts as [|x r IH]; intros LEN pos first a t b E; cbn [MainSpec.written] in E.
  - right. rewrite app_nil_r in E. destruct first; [|destruct a; discriminate].
    exists [], [], a, b. cbn [app]. rewrite Nat.add_0_r. repeat split; auto. exact (ZL _ _ _ _ E).
  - destruct (app_split _ _ _ _ _ E) as [(b' & E1 & _)|(a' & -> & E2)].
    + right. destruct first; [|destruct a; discriminate]. exists [], (x :: r), a, b'. cbn [app]. rewrite Nat.add_0_r.
      repeat split; auto. exact (ZL _ _ _ _ E1).
    + assert (T0 : total (if first then nth pos ind [] else []) = 0) by (destruct first; [apply Z|reflexivity]).
      rewrite total_app, T0. cbn [plus]. destruct a' as [|y a'].
      * injection E2 as <- <-. left. exists [], x, r. cbn [app]. rewrite Nat.add_0_r. auto.
      * injection E2 as <- E2. destruct (IH (fun y H => LEN y (or_intror H)) _ _ _ _ _ E2) as [(ts1 & y & ts2 & -> & -> & T)|(ts1 & ts2 & l1 & l2 & -> & EN & T & FM)].
        -- left. exists (x :: ts1), y, ts2. cbn [app]. rewrite reached_cons, Nat.add_assoc. split; [reflexivity|]. split; [reflexivity|].
           change (total (shown pos x :: a')) with (length (r_input (shown pos x) ++ flat_map r_input a')).
           rewrite app_length. fold (total a'). rewrite T. destruct (shown_fields pos x) as (_ & -> & _). rewrite <- (LEN x (or_introl eq_refl)). reflexivity.
        -- right. exists (x :: ts1), ts2, l1, l2. cbn [app]. rewrite reached_cons, Nat.add_assoc. split; [reflexivity|]. split; [exact EN|]. split.
           ++ change (total (shown pos x :: a')) with (length (r_input (shown pos x) ++ flat_map r_input a')).
              rewrite app_length. fold (total a'). rewrite T. destruct (shown_fields pos x) as (_ & -> & _). rewrite <- (LEN x (or_introl eq_refl)). reflexivity.
           ++ right. destruct FM as [[-> F]|(c & y & -> & M)].
              ** apply Nat.ltb_lt in F. exists [], x. auto.
              ** exists (x :: c), y. auto.
Qed.
(** conversely each step and each indication of a position where a piece begins is put out *)
Lemma written_step ts1 x ts2 : forall pos first, exists a b, written pos first (ts1 ++ x :: ts2) = a ++ shown (pos + reached ts1) x :: b.
Proof.
  induction ts1 as [|y ts1 IH]; intros pos first; cbn [app MainSpec.written].
  - rewrite Nat.add_0_r. eauto.
  - rewrite reached_cons, Nat.add_assoc. destruct (IH (pos + r_length (snd y)) (Nat.ltb 0 (r_length (snd y)))) as (a & b & ->).
    eexists (_ ++ _ :: a), b. rewrite <- app_assoc. reflexivity.
Qed.
End Written.

(** ** The sources of a table *)
Section Sources.
Variable compat : bool.
Variable read_dictionary : str -> tres hyph.
Variable d : direction.
Variable x : context.
Variable rules : list rule.
Variable lower : char -> list char.
Variable p : ptable.
Hypothesis C : compiled compat read_dictionary d x rules p.
Notation src := (rule_sources compat d x rules lower).
Notation ctx := (trie_ctx d x).


Lemma word_entry_rule r a : In a (word_entries x r) -> is_comp6 r = false /\ is_match r = false /\ is_context r = false.
Proof. unfold word_entries. destruct r; cbn; auto; intros H; destruct H. Qed.
Lemma main_entry_rule a : In a (main_entries d x rules) -> exists r, In r rules /\ i_origin a = Some r /\
  is_comp6 r = false /\ is_match r = false /\ is_context r = false /\ is_nocross r = false.
Proof.
  assert (CE : forall f r, (forall q, f q <> [] -> is_comp6 q = false /\ is_match q = false /\ is_context q = false /\ is_nocross q = false) ->
     In a (backward_only d (character_entries f r)) -> i_origin a = Some r /\ is_comp6 r = false /\ is_match r = false /\ is_context r = false /\ is_nocross r = false).
  { intros f r F. unfold backward_only. destruct (is_backward d); [|intros []]. unfold character_entries. intros H.
    apply in_map_iff in H. destruct H as ([c t] & <- & H). split; [reflexivity|]. apply F. intros E. rewrite E in H. destruct H. }
  unfold main_entries. rewrite in_app_iff, !in_flat_map. intros [(r & Hr & H)|(r & Hr & H)].
  - apply CE in H; [exists r; tauto|]. intros q. destruct q; cbn; auto; congruence.
  - unfold main_entries_of in H. rewrite !in_app_iff in H. destruct H as [H|[H|H]].
    + apply CE in H; [exists r; tauto|]. intros q. destruct q; cbn; auto; congruence.
    + exists r. split; [exact Hr|]. destruct r; try destruct H; cbn [indicator_entries] in H;
        match type of H with In _ (if ?b then _ else _) => destruct b; [|destruct H]; destruct H as [<-|[]] end; cbn; auto.
    + destruct (is_nocross r) eqn:N; [destruct H|]. pose proof (word_entry_rule _ _ H). apply word_oriented in H. exists r. tauto.
Qed.
Lemma text_offer u rest prev : by_text src rest prev u -> trie_offer lower rest u /\ exists r, In r rules /\ r_origin u = Some r /\
  is_comp6 r = false /\ is_match r = false /\ is_context r = false /\ is_nocross r = false.
Proof.
  intros H. split.
  - apply (ok_trie _ _ (compiled_ok _ _ _ _ _ lower p C) rest prev). eapply lookup_main; eauto.
  - destruct H as (full & a & F & _ & ->). apply in_force_in, main_entry_rule in F. exact F.
Qed.
Lemma nocross_offer u rest prev : by_nocross src rest prev u -> trie_offer lower rest u /\
  exists r, In r rules /\ r_origin u = Some r /\ is_nocross r = true.
Proof.
  intros H. split.
  - apply (ok_nocross _ _ (compiled_ok _ _ _ _ _ lower p C) rest prev). eapply lookup_nocross; eauto.
  - destruct H as (full & a & F & _ & ->). apply in_force_in, nocross_oriented in F. destruct F as (_ & r & H1 & H2 & H3). exists r. auto.
Qed.
Lemma comp6_entry_rule a : In a (comp6_entries x rules) -> exists r, In r rules /\ i_origin a = Some r /\ is_comp6 r = true.
Proof.
  unfold comp6_entries. rewrite in_flat_map. intros (r & Hr & H). destruct r; try destruct H. cbn [comp6_entries_of] in H.
  destruct (dots_of x dots chars); try destruct H as [<-|[]]; try destruct H. exists (RComp6 chars dots). auto.
Qed.
Lemma comp6_offer u rest prev : by_comp6 src rest prev u -> trie_offer lower rest u /\
  exists r, In r rules /\ r_origin u = Some r /\ is_comp6 r = true.
Proof.
  intros H. split.
  - apply (ok_comp6 _ _ (compiled_ok _ _ _ _ _ lower p C) rest prev). eapply lookup_comp6; eauto.
  - destruct H as (full & a & F & _ & ->). apply in_force_in, comp6_entry_rule in F. exact F.
Qed.
Lemma cpat_find_origin q e b rest u : cpat_find lower q e b rest = Ok (Some u) ->
  r_origin u = match cp_payload q with Resolved t => r_origin t | Unresolved t => u_origin t end.
Proof.
  unfold cpat_find. destruct (regexp_find _ _ _ _ _) as [[f|]| |]; try discriminate. cbn [bind].
  destruct (translation_resolve _ _ _ _) as [t| |] eqn:E; try discriminate. cbn [bind]. intros [= <-].
  destruct (cp_payload q) as [r|r]; cbn [translation_resolve] in E.
  - injection E as <-. reflexivity.
  - unfold unresolved_resolve in E. destruct (targets_string _ _); try discriminate. cbn [bind] in E. injection E as <-. reflexivity.
Qed.
Lemma match_entry_rule q r : In q (match_entries x r) -> pat_ok q /\ is_match r = true /\
  match cp_payload q with Resolved t => r_origin t | Unresolved t => u_origin t end = Some r.
Proof.
  destruct r; try (intros []; fail). cbn [match_entries]. destruct (dots_of x dots chars) as [t| |]; try (intros []; fail).
  destruct (match_insert _ _ _ _ _ _) as [q'| |] eqn:E; try (intros []; fail). intros [<-|[]].
  split; [left; eapply match_insert_pattern, E|]. split; [reflexivity|]. unfold match_insert in E.
  destruct (re_of_match _ _ _ _); try discriminate. injection E as <-. reflexivity.
Qed.
Lemma context_entry_rule q r : In q (context_entries x r) -> pat_ok q /\ is_context r = true /\
  match cp_payload q with Resolved t => r_origin t | Unresolved t => u_origin t end = Some r.
Proof.
  destruct r; try (intros []; fail). cbn [context_entries].
  destruct (context_insert _ _ _ _ _) as [q'| |] eqn:E; try (intros []; fail). intros [<-|[]].
  split; [right; eapply context_insert_rule_pattern, E|]. split; [reflexivity|]. unfold context_insert in E.
  destruct (targets_of _ _); try discriminate. cbn [tbind] in E.
  destruct (re_of_instrs _ _); try discriminate. injection E as <-. reflexivity.
Qed.
(** the opcodes of a rule *)
Definition pattern_rule (r : rule) : Prop := is_match r = true \/ is_context r = true.
Lemma pattern_rule_kind r : pattern_rule r -> is_comp6 r = false /\ is_nocross r = false.
Proof. unfold pattern_rule. destruct r; cbn; intros [H|H]; try discriminate; auto. Qed.
Lemma found_facts input a u : found src input a u -> fits_at (like lower) (left input a) u /\ sets_only u /\
  exists r, In r rules /\ r_origin u = Some r /\ pattern_rule r.
Proof.
  intros [(q & Hq & E)|(e & _ & (q & Hq & E))]; apply in_flat_map in Hq; destruct Hq as (r & Hr & Hq);
    [apply match_entry_rule in Hq|apply context_entry_rule in Hq]; destruct Hq as (PO & K & O).
  - destruct (pat_find lower q env_new (Nat.eqb (reached a) 0) (left input a) _ PO (le_n _)) as (o & Eo & Ho).
    pose proof (eq_trans (eq_sym E) Eo) as X. injection X as <-. destruct (Ho u eq_refl) as (H1 & H2 & _).
    split; [exact H1|]. split; [exact H2|]. exists r. split; [exact Hr|]. split; [|left; exact K].
    rewrite <- O. eapply cpat_find_origin, E.
  - destruct (pat_find lower q e (Nat.eqb (reached a) 0) (left input a) _ PO (le_n _)) as (o & Eo & Ho).
    pose proof (eq_trans (eq_sym E) Eo) as X. injection X as <-. destruct (Ho u eq_refl) as (H1 & H2 & _).
    split; [exact H1|]. split; [exact H2|]. exists r. split; [exact Hr|]. split; [|right; exact K].
    rewrite <- O. eapply cpat_find_origin, E.
Qed.

(** ** One step *)
Variable lim : pos_flags.
Variable input : str.
(** a piece that stands for the text at a position *)
Definition stands_at (pos : nat) (u : resolved) : Prop :=
  pos + r_length u <= length input /\ r_length u = length (r_input u) /\
  like lower (firstn (r_length u) (skipn pos input)) (r_input u).
Lemma trie_stands pos u : pos <= length input -> trie_offer lower (skipn pos input) u -> stands_at pos u /\ 1 <= r_length u.
Proof.
  intros L (A & B & D & E & F & G). rewrite skipn_length in D. unfold stands_at. unfold char in *. repeat split; auto; lia.
Qed.
Lemma char_stands pos c r u : skipn pos input = c :: r -> char_offer c u -> stands_at pos u /\ r_length u = 1.
Proof.
  intros E (A & B & D & F). assert (L : length (skipn pos input) = S (length r)) by (rewrite E; reflexivity).
  rewrite skipn_length in L. split; [|exact B]. unfold stands_at. rewrite B, D, E. unfold char in *. split; [lia|]. split; [reflexivity|].
  apply like_refl.
Qed.
Definition text_rule (r : rule) : Prop := is_comp6 r = false /\ is_match r = false /\ is_context r = false /\ is_nocross r = false.
Lemma offers_facts a u : reached a <= length input -> offers src input a u ->
  stands_at (reached a) u /\
  exists r, In r rules /\ r_origin u = Some r /\ (text_rule r /\ 1 <= r_length u \/ pattern_rule r).
Proof.
  intros L [H|[[H O]|H]].
  - apply text_offer in H. destruct H as (H & r & H1 & H2 & H3). apply trie_stands in H; [|exact L]. destruct H as [H4 H5].
    split; [exact H4|]. exists r. unfold text_rule. auto.
  - apply found_facts in H. destruct H as ((A & B & D) & _ & r & H1 & H2 & H3). rewrite O in *. cbn [skipn plus] in *.
    unfold left in *. rewrite skipn_length in A. split; [unfold stands_at; unfold char in *; repeat split; auto; lia|]. exists r. auto.
  - destruct H as (b & c & v & -> & F & _ & R & _ & ->). apply found_facts in F. destruct F as ((A & B & D) & _ & r & H1 & H2 & H3).
    unfold left in *. rewrite skipn_length in A. rewrite skipn_skipn', <- R, <- reached_app in D. rewrite reached_app in L.
    split; [|exists r; auto]. unfold stands_at. cbn [with_offset r_length r_input]. rewrite reached_app in *. unfold char in *. repeat split; auto; lia.
Qed.
Lemma digit_facts a u : digit src d lim input a u -> stands_at (reached a) u /\ r_length u = 1 /\
  exists r, In r rules /\ r_origin u = Some r /\ text_rule r.
Proof.
  intros (_ & _ & c & r & E & H). apply assoc_in, digit_table_in in H. destruct H as (A & B & D & F & r' & ch & k & H1 & H2 & _ & H3).
  destruct (char_stands (reached a) c r u E) as [P Q]; [unfold char_offer; auto|]. split; [exact P|]. split; [exact Q|].
  exists r'. split; [exact H1|]. split; [exact H2|]. destruct H3 as [-> | ->]; repeat split.
Qed.
Lemma available_facts a u : reached a <= length input -> available src d lim input a u ->
  stands_at (reached a) u /\ exists r, In r rules /\ r_origin u = Some r /\
    is_nocross r = false /\ (is_comp6 r = true <-> flag_at k_comp6 lim (reached a) = true) /\
    (is_comp6 r = true \/ text_rule r -> 1 <= r_length u) /\ (is_comp6 r = true \/ text_rule r \/ pattern_rule r).
Proof.
  intros L. unfold available. destruct (flag_at k_comp6 lim (reached a)) eqn:K.
  - intros H. apply comp6_offer in H. destruct H as (H & r & H1 & H2 & H3). apply trie_stands in H; [|exact L].
    destruct H as [H4 H5]. split; [exact H4|]. exists r. split; [exact H1|]. split; [exact H2|].
    split; [destruct r; try discriminate; reflexivity|]. split; [tauto|]. auto.
  - intros (_ & [H|(H & _)]).
    + apply digit_facts in H. destruct H as (H1 & H2 & r & H3 & H4 & H5). split; [exact H1|]. exists r. rewrite H2.
      split; [exact H3|]. split; [exact H4|]. pose proof H5 as (A & B & D & E). rewrite A, E. split; [reflexivity|]. split; [split; discriminate|]. auto.
    + apply offers_facts in H; [|exact L]. destruct H as (H1 & r & H2 & H3 & H4). split; [exact H1|]. exists r. split; [exact H2|]. split; [exact H3|].
      destruct H4 as [(A & B)|A].
      * pose proof A as (A1 & A2 & A3 & A4). rewrite A1, A4. split; [reflexivity|]. split; [split; discriminate|]. auto.
      * destruct (pattern_rule_kind r A) as [A1 A2]. rewrite A1, A2. split; [reflexivity|]. split; [split; discriminate|]. split; [|auto].
        intros [X|X]; [discriminate|]. destruct X as (_ & X1 & X2 & _). destruct A as [A|A]; congruence.
Qed.
Lemma nocross_facts a u : reached a <= length input -> nocross_available src lim input a u ->
  stands_at (reached a) u /\ 1 <= r_length u /\ exists r, In r rules /\ r_origin u = Some r /\ is_nocross r = true.
Proof.
  intros L (H & _). apply nocross_offer in H. destruct H as (H & H1). apply trie_stands in H; [|exact L]. tauto.
Qed.
(** the rules that define a character *)
Definition defines_character (r : rule) (c : char) : Prop :=
  exists dots, In (c, dots) (first_characters r) \/ In (c, dots) (other_characters d x rules r).
Lemma character_facts c u : character_offers compat d x rules c u -> char_offer c u /\
  (r_origin u = None \/ exists r, In r rules /\ r_origin u = Some r /\ defines_character r c).
Proof.
  unfold character_offers, character_lookup. destruct (assoc c (if compat then character_table d x rules else rev (character_table d x rules))) as [t|] eqn:E.
  - intros ->. apply assoc_in in E.
    assert (H : In (c, t) (character_table d x rules)) by (destruct compat; [exact E|apply in_rev, E]).
    pose proof (character_table_in _ _ _ _ _ H) as (A & B & D & F & _). split; [unfold char_offer; auto|]. right.
    unfold character_table in H. destruct (is_backward d); [destruct H|]. rewrite in_app_iff, !in_flat_map in H. unfold defines_character.
    destruct H as [(r & Hr & H)|(r & Hr & H)]; exists r; (split; [exact Hr|]); unfold char_pieces in H;
      apply in_map_iff in H; destruct H as ([c' dots] & [= <- <-] & H); (split; [reflexivity|]); exists dots; auto.
  - destruct (undefined_dots rules) as [dots|].
    + intros ->. split; [unfold char_offer; cbn; auto|]. left. reflexivity.
    + intros (h & _ & ->). split; [unfold char_offer; cbn; auto|]. left. reflexivity.
Qed.
Lemma step_facts a y : reached a <= length input -> best src d lim input a y ->
  stands_at (reached a) (snd y) /\
  match fst y with
  | ByNocross => 1 <= r_length (snd y) /\ exists r, In r rules /\ r_origin (snd y) = Some r /\ is_nocross r = true
  | ByRule => exists r, In r rules /\ r_origin (snd y) = Some r /\
      is_nocross r = false /\ (is_comp6 r = true <-> flag_at k_comp6 lim (reached a) = true) /\
      (is_comp6 r = true \/ text_rule r -> 1 <= r_length (snd y)) /\ (is_comp6 r = true \/ text_rule r \/ pattern_rule r)
  | ByFallback => r_length (snd y) = 1 /\ exists c r, left input a = c :: r /\ r_input (snd y) = [c] /\
      (r_origin (snd y) = None \/ exists r, In r rules /\ r_origin (snd y) = Some r /\ defines_character r c)
  end.
Proof.
  intros L. destruct y as [[| |] t]; cbn [best fst snd].
  - intros (H & _). apply nocross_facts in H; [|exact L]. tauto.
  - intros (H & _). apply available_facts in H; auto.
  - intros ((c & r & E & H) & _). apply character_facts in H. destruct H as [H O].
    destruct (char_stands (reached a) c r t E H) as [P Q]. split; [exact P|]. split; [exact Q|]. exists c, r. destruct H as (_ & _ & H & _). auto.
Qed.
Lemma derivation_inside ts : derivation src d lim input ts -> reached ts <= length input.
Proof.
  induction 1 as [|a y D IH B]; [cbn; lia|]. apply step_facts in B; [|exact IH]. destruct B as ((B & _) & _).
  rewrite reached_app, reached_one. exact B.
Qed.
Lemma derivation_stands ts : derivation src d lim input ts -> forall a y b, ts = a ++ y :: b -> stands_at (reached a) (snd y).
Proof.
  intros D a y b ->. eapply step_facts; [|eapply derivation_split; eauto]. apply derivation_inside, derivation_prefix with (b := y :: b), D.
Qed.
Lemma derivation_lengths ts : derivation src d lim input ts -> forall y, In y ts -> r_length (snd y) = length (r_input (snd y)).
Proof.
  intros D y H. apply in_split in H. destruct H as (a & b & ->). eapply (derivation_stands _ D a y b eq_refl).
Qed.
End Sources.
