(** A compiled main table, with the children of its tries in any order. *)
From Coq Require Import Permutation.
From Verif Require Import Base BaseProofs RuleModel TranslationModel TranslationProofs TableModel RegexpModel
  RegexpSpec PatternModel OperandModel OperandProofs OperandProofs2 MatchProofs TrieModel TrieProofs PropTrie
  HyphenationModel LoopModel LoopProofs MultipassProofs PrimaryProofs CompileModel CompileSpec CompileProofs.

Lemma pattern_no_capture ctx p : forall r, re_of_pattern ctx p = Some r -> no_capture r = true.
Proof.
  induction p as [|s|sd|  |cs|a|a sd|ps IH|p IH|p IH|p IH|p IH|l r IHl IHr] using pat_ind'; intros R E;
    try (injection E as <-; auto using no_capture_anchor; fail).
  - cbn [re_of_pattern] in E. unfold re_of_attrs in E. destruct (existsb bad_attr a); [discriminate|]. injection E as <-. reflexivity.
  - cbn [re_of_pattern] in E. unfold re_of_attrs in E. destruct (existsb bad_attr a); [discriminate|]. injection E as <-.
    cbn [no_capture]. apply no_capture_anchor.
  - rewrite re_of_group in E. destruct (re_of_patterns ctx ps) as [q|] eqn:Eq; [|discriminate]. injection E as <-.
    cbn [no_capture]. eapply no_capture_list; eauto.
  - cbn [re_of_pattern] in E. destruct (re_of_pattern ctx p) as [q|] eqn:Eq; [|discriminate]. simpl in E.
    eapply no_capture_negate; eauto.
  - cbn [re_of_pattern] in E. destruct (re_of_pattern ctx p) as [q|] eqn:Eq; [|discriminate]. injection E as <-. cbn [no_capture]. auto.
  - cbn [re_of_pattern] in E. destruct (re_of_pattern ctx p) as [q|] eqn:Eq; [|discriminate]. injection E as <-. cbn [no_capture]. auto.
  - cbn [re_of_pattern] in E. destruct (re_of_pattern ctx p) as [q|] eqn:Eq; [|discriminate]. injection E as <-. cbn [no_capture]. auto.
  - rewrite re_of_either in E. destruct (re_of_patterns ctx l) as [a|] eqn:Ea; [|discriminate].
    destruct (re_of_patterns ctx r) as [b|] eqn:Eb; [|discriminate]. injection E as <-.
    cbn [no_capture]. rewrite (no_capture_list ctx l IHl a Ea), (no_capture_list ctx r IHr b Eb). reflexivity.
Qed.
Lemma match_insert_pattern ctx pre chars post t o p : match_insert ctx pre chars post t o = TOk p -> match_pattern p.
Proof.
  unfold match_insert, re_of_match. destruct (re_of_patterns ctx pre) as [a|]; [|discriminate].
  destruct (re_of_patterns ctx post) as [b|] eqn:Eb; [|discriminate]. intros [= <-].
  exists a, b, chars. eexists. split; [reflexivity|]. split.
  - eapply no_capture_list; [|exact Eb]. apply Forall_forall. intros q _. apply pattern_no_capture.
  - split; [reflexivity|]. cbn. repeat split. discriminate.
Qed.

Section Table.
Variable compat : bool.
Variable read_dictionary : str -> tres hyph.
Variable d : direction.
Variable x : context.
Variable rules : list rule.

(** [p] is the compiled main table, whatever the iteration order of its hash maps *)
Definition compiled (p : ptable) : Prop :=
  exists p0, primary_compile compat read_dictionary d x rules = TOk p0 /\
    shuffle (p_trie p0) (p_trie p) /\ shuffle (p_nocross p0) (p_nocross p) /\ shuffle (p_comp6 p0) (p_comp6 p) /\
    p_chars p = p_chars p0 /\ p_match p = p_match p0 /\ p_context p = p_context p0 /\ p_digits p = p_digits p0 /\
    p_undefined p = p_undefined p0 /\ p_dir p = p_dir p0 /\ p_fallback p = p_fallback p0.

Lemma word_oriented r a : In a (word_entries x r) -> well_oriented a /\ i_origin a = Some r.
Proof.
  unfold word_entries. destruct r; cbn [word_insertions]; try (intros []; fail);
    try (match goal with |- context [dots_of x ?b ?cs] => destruct (dots_of x b cs) as [t| |]; cbn [tbind]; [|intros []|intros []] end);
    try (match goal with |- context [forallb ?f ?l] => destruct (forallb f l); [|intros []] end);
    cbn [In]; intros HI; repeat (destruct HI as [<-|HI]; [split; [split; intros ? ?; discriminate|reflexivity]|]); destruct HI.
Qed.
Lemma main_oriented a : In a (main_entries d x rules) -> well_oriented a /\ exists r, In r rules /\ i_origin a = Some r.
Proof.
  assert (C : forall f r, In a (backward_only d (character_entries f r)) -> well_oriented a /\ i_origin a = Some r).
  { intros f r. unfold backward_only. destruct (is_backward d); [|intros []]. unfold character_entries.
    intros H. apply in_map_iff in H. destruct H as ([c t] & <- & _). split; [split; intros; discriminate|reflexivity]. }
  unfold main_entries. rewrite in_app_iff, !in_flat_map. intros [(r & Hr & H)|(r & Hr & H)].
  - apply C in H. destruct H. eauto.
  - unfold main_entries_of in H. rewrite !in_app_iff in H. destruct H as [H|[H|H]].
    + apply C in H. destruct H. eauto.
    + destruct r; try destruct H; cbn [indicator_entries] in H;
        match type of H with In _ (if ?b then _ else _) => destruct b; [|destruct H]; destruct H as [<-|[]] end;
        (split; [split; intros; discriminate|eauto]).
    + destruct (is_nocross r); [destruct H|]. apply word_oriented in H. destruct H. eauto.
Qed.
Lemma nocross_oriented a : In a (nocross_entries x rules) -> well_oriented a /\ exists r, In r rules /\ i_origin a = Some r /\ is_nocross r = true.
Proof.
  unfold nocross_entries. rewrite in_flat_map. intros (r & Hr & H). destruct (is_nocross r) eqn:N; [|destruct H].
  apply word_oriented in H. destruct H. eauto.
Qed.
Lemma comp6_oriented a : In a (comp6_entries x rules) -> well_oriented a /\ exists r, In r rules /\ i_origin a = Some r.
Proof.
  unfold comp6_entries. rewrite in_flat_map. intros (r & Hr & H). destruct r; try destruct H. cbn [comp6_entries_of] in H.
  destruct (dots_of x dots chars); try destruct H as [<-|[]]; try destruct H. split; [split; intros; discriminate|eauto].
Qed.

Section Lookup.
Variable lower : char -> list char.
Variable p : ptable.
Hypothesis C : compiled p.
Notation ctx := (trie_ctx d x).
Lemma lookup_main input prev t : In t (find_translations lower (p_trie p) input prev) <->
  exists full a, in_force compat ctx d (main_entries d x rules) full a /\ applies lower ctx d a input prev /\ t = offer ctx d full a.
Proof.
  destruct C as (p0 & E & S1 & _). destruct (compile_spec _ _ _ _ _ _ E) as (I1 & _).
  eapply C15_lookup_exact; eauto. intros a Ha. apply main_oriented, Ha.
Qed.
Lemma lookup_nocross input prev t : In t (find_translations lower (p_nocross p) input prev) <->
  exists full a, in_force compat ctx d (nocross_entries x rules) full a /\ applies lower ctx d a input prev /\ t = offer ctx d full a.
Proof.
  destruct C as (p0 & E & _ & S1 & _). destruct (compile_spec _ _ _ _ _ _ E) as (_ & I1 & _).
  eapply C15_lookup_exact; eauto. intros a Ha. apply nocross_oriented, Ha.
Qed.
Lemma lookup_comp6 input prev t : In t (find_translations lower (p_comp6 p) input prev) <->
  exists full a, in_force compat ctx d (comp6_entries x rules) full a /\ applies lower ctx d a input prev /\ t = offer ctx d full a.
Proof.
  destruct C as (p0 & E & _ & _ & S1 & _). destruct (compile_spec _ _ _ _ _ _ E) as (_ & _ & I1 & _).
  eapply C15_lookup_exact; eauto. intros a Ha. apply comp6_oriented, Ha.
Qed.
Lemma in_force_in l full a : in_force compat ctx d l full a -> In a l.
Proof. intros (l1 & l2 & -> & _). apply in_or_app. simpl. auto. Qed.
Lemma text_like from input rest : text_matches lower from input rest ->
  like lower (firstn (length from) input) from.
Proof.
  induction 1 as [|y from c input rest E H IH]; cbn [length firstn]; [constructor|]. constructor; [right; exact E|exact IH].
Qed.
Lemma offer_ok l input prev t : (forall a, In a l -> well_oriented a) ->
  (exists n, trie_insert_all compat ctx d node_empty l = TOk n) ->
  (exists full a, in_force compat ctx d l full a /\ applies lower ctx d a input prev /\ t = offer ctx d full a) ->
  trie_offer lower input t.
Proof.
  intros W (n & E) (full & a & F & (rest & Ht & _) & ->). apply in_force_in in F.
  assert (Hne : sought d a <> []).
  { intros Hf. assert (P : trie_insert_all compat ctx d node_empty l = TPanic)
      by (apply C15_insert_panics_only_on_empty_text; eauto). congruence. }
  pose proof (text_matches_length _ _ _ _ Ht) as HL. unfold trie_offer.
  cbn [offer resolved_new r_length r_offset r_input r_effects].
  split; [reflexivity|]. split; [destruct (sought d a); [congruence|simpl; lia]|]. split; [unfold char in *; lia|].
  split; [reflexivity|]. split; [eapply text_like, Ht|reflexivity].
Qed.
Lemma char_piece_in f r c t : In (c, t) (char_pieces f r) -> r_offset t = 0 /\ r_length t = 1 /\ r_input t = [c] /\ r_effects t = [] /\ r_origin t = Some r.
Proof.
  unfold char_pieces. intros H. apply in_map_iff in H. destruct H as ([c' u] & E & _). injection E as <- <-. cbn. auto.
Qed.
Lemma assoc_in {A} (c : char) (l : list (char * A)) t : assoc c l = Some t -> In (c, t) l.
Proof.
  induction l as [|[k v] l IH]; [discriminate|]. cbn [assoc]. destruct (N.eqb_spec c k) as [->|].
  - intros [= ->]. left. reflexivity.
  - intros E. right. auto.
Qed.
Lemma character_table_in c t : In (c, t) (character_table d x rules) ->
  r_offset t = 0 /\ r_length t = 1 /\ r_input t = [c] /\ r_effects t = [] /\ exists r, In r rules /\ r_origin t = Some r.
Proof.
  unfold character_table. destruct (is_backward d); [intros []|]. rewrite in_app_iff, !in_flat_map.
  intros [(r & Hr & H)|(r & Hr & H)]; apply char_piece_in in H; destruct H as (A & B & D & E & F); eauto 8.
Qed.
Lemma digit_table_in c t : In (c, t) (digit_table d rules) ->
  r_offset t = 0 /\ r_length t = 1 /\ r_input t = [c] /\ r_effects t = [] /\
  exists r ch k, In r rules /\ r_origin t = Some r /\ r_output t = [ch] /\ (r = RDigit ch [c] k \/ r = RLitdigit ch [c] k).
Proof.
  unfold digit_table. rewrite <- in_rev, in_flat_map. intros (r & Hr & H).
  destruct r; try destruct H; cbn [digit_entries] in H; destruct dots as [|cell [|y z]]; try destruct H;
    match type of H with In _ (if ?b then _ else _) => destruct b; [|destruct H]; destruct H as [H|[]]; injection H as <- <- end;
    cbn; repeat split; do 3 eexists; (split; [exact Hr|]); auto.
Qed.
Lemma compiled_ok : table_ok lower p.
Proof.
  pose proof C as (p0 & E & S1 & S2 & S3 & E1 & E2 & E3 & E4 & E5 & E6 & E7).
  destruct (compile_spec _ _ _ _ _ _ E) as (I1 & I2 & I3 & I4 & I5 & I6 & I7 & _).
  constructor.
  - intros rest prev t H. apply lookup_main in H. eapply (offer_ok (main_entries d x rules)); [|eauto|exact H]. intros a Ha. apply main_oriented, Ha.
  - intros rest prev t H. apply lookup_comp6 in H. eapply (offer_ok (comp6_entries x rules)); [|eauto|exact H]. intros a Ha. apply comp6_oriented, Ha.
  - intros rest prev t H. apply lookup_nocross in H. eapply (offer_ok (nocross_entries x rules)); [|eauto|exact H]. intros a Ha. apply nocross_oriented, Ha.
  - intros c t H. rewrite E1, I4 in H. unfold character_lookup in H. apply assoc_in in H.
    assert (H' : In (c, t) (character_table d x rules)) by (destruct compat; [exact H|apply in_rev; exact H]).
    apply character_table_in in H'. unfold char_offer. tauto.
  - intros c t H. rewrite E4, I7 in H. apply assoc_in, digit_table_in in H. unfold char_offer. tauto.
  - rewrite E2, I5. apply Forall_flat_map, Forall_forall. intros r _. destruct r; try constructor. cbn [match_entries].
    destruct (dots_of x dots chars) as [t| |]; try constructor.
    destruct (match_insert _ _ _ _ _ _) as [q| |] eqn:Eq; constructor; [|constructor]. eapply match_insert_pattern, Eq.
  - rewrite E3, I6. apply Forall_flat_map, Forall_forall. intros r _. destruct r; try constructor. cbn [context_entries].
    destruct (context_insert _ _ _ _ _) as [q| |] eqn:Eq; constructor; [|constructor]. eapply context_insert_rule_pattern, Eq.
Qed.
End Lookup.
End Table.
