(** [primary_compile] makes exactly the entries of CompileSpec.v. *)
From Verif Require Import Base BaseProofs RuleModel TranslationModel TableModel RegexpModel PatternModel
  TrieModel TrieProofs HyphenationModel LoopModel LoopProofs CompileModel CompileSpec.

Lemma insert_all_app compat ctx d a : forall n b, trie_insert_all compat ctx d n (a ++ b) =
  tbind (trie_insert_all compat ctx d n a) (fun n' => trie_insert_all compat ctx d n' b).
Proof.
  induction a as [|y a IH]; intros n b; cbn [app trie_insert_all tbind]; [reflexivity|].
  destruct (trie_insert compat ctx d n y) as [n'| |]; cbn [tbind]; auto.
Qed.

Section Spec.
Variable compat : bool.
Variable read_dictionary : str -> tres hyph.
Variable d : direction.
Variable x : context.
Variable rules : list rule.
Notation tctx := (trie_ctx d x).
Notation ins_all := (trie_insert_all compat tctx d).
Notation add := (fold_left (fun m (e : char * resolved) => chars_insert compat m (fst e) (snd e))).

Record grows (b b' : builder) (lm ln l6 : list ins_args) (cs : list (char * resolved)) (ms xs : list cpat)
  (ds : list (char * resolved)) (u : option str) : Prop := mk_grows {
  g_main : ins_all (b_trie b) lm = TOk (b_trie b');
  g_nocross : ins_all (b_nocross b) ln = TOk (b_nocross b');
  g_comp6 : ins_all (b_comp6 b) l6 = TOk (b_comp6 b');
  g_chars : b_chars b' = add cs (b_chars b);
  g_match : b_match b' = b_match b ++ ms;
  g_context : b_context b' = b_context b ++ xs;
  g_digits : b_digits b' = rev ds ++ b_digits b;
  g_undef : b_undefined b' = match u with Some t => Some t | None => b_undefined b end }.
Lemma grows_refl b : grows b b [] [] [] [] [] [] [] None.
Proof. constructor; try reflexivity; rewrite app_nil_r; reflexivity. Qed.
Lemma grows_trans b b' b'' lm ln l6 cs ms xs ds u lm' ln' l6' cs' ms' xs' ds' u' :
  grows b b' lm ln l6 cs ms xs ds u -> grows b' b'' lm' ln' l6' cs' ms' xs' ds' u' ->
  grows b b'' (lm ++ lm') (ln ++ ln') (l6 ++ l6') (cs ++ cs') (ms ++ ms') (xs ++ xs') (ds ++ ds')
        (match u' with Some t => Some t | None => u end).
Proof.
  intros [A1 A2 A3 A4 A5 A6 A7 A8] [B1 B2 B3 B4 B5 B6 B7 B8].
  constructor; try (rewrite insert_all_app, ?A1, ?A2, ?A3; cbn [tbind]; assumption).
  - rewrite fold_left_app, B4, A4. reflexivity.
  - rewrite B5, A5, app_assoc. reflexivity.
  - rewrite B6, A6, app_assoc. reflexivity.
  - rewrite B7, A7, rev_app_distr, app_assoc. reflexivity.
  - rewrite B8, A8. destruct u'; reflexivity.
Qed.
Definition undef_of (r : rule) : option str := match r with RUndefined t => Some t | _ => None end.
Definition forward_only {A} (l : list A) : list A := if is_backward d then [] else l.

Lemma grows_main b a b' : insert_main compat d x b a = TOk b' -> grows b b' [a] [] [] [] [] [] [] None.
Proof.
  unfold insert_main. destruct (trie_insert compat tctx d (b_trie b) a) as [n| |] eqn:E; try discriminate.
  cbn [tbind]. intros [= <-]. constructor; cbn [set_trie b_trie b_nocross b_comp6 b_chars b_match b_context b_digits b_undefined trie_insert_all]; rewrite ?app_nil_r; auto.
  rewrite E. reflexivity.
Qed.
Lemma grows_rules r l : forall b b', insert_rules compat d x r b l = TOk b' ->
  grows b b' (if is_nocross r then [] else l) (if is_nocross r then l else []) [] [] [] [] [] None.
Proof.
  induction l as [|a l IH]; cbn [insert_rules]; intros b b' E.
  - injection E as <-. destruct (is_nocross r); apply grows_refl.
  - unfold insert_rule in E.
    destruct (is_nocross r) eqn:N.
    + destruct (trie_insert compat tctx d (b_nocross b) a) as [n| |] eqn:Ea; try discriminate. cbn [tbind] in E.
      apply IH in E. 
      assert (G : grows b (set_nocross b n) [] [a] [] [] [] [] [] None).
      { constructor; cbn [set_nocross b_trie b_nocross b_comp6 b_chars b_match b_context b_digits b_undefined trie_insert_all]; rewrite ?app_nil_r; auto.
        rewrite Ea. reflexivity. }
      apply (grows_trans _ _ _ _ _ _ _ _ _ _ _ _ _ _ _ _ _ _ _ G) in E. exact E.
    + destruct (insert_main compat d x b a) as [b1| |] eqn:Ea; try discriminate. cbn [tbind] in E.
      apply IH in E. apply grows_main in Ea. apply (grows_trans _ _ _ _ _ _ _ _ _ _ _ _ _ _ _ _ _ _ _ Ea) in E. exact E.
Qed.
Lemma grows_character r c dots b b' : insert_character compat d x r c dots b = TOk b' ->
  grows b b' (backward_only d [mk_ins [c] dots None None (rule_precedence r) [] Main (Some r)]) [] []
    (forward_only [(c, resolved_new [c] dots 1 Main (Some r))]) [] [] [] None.
Proof.
  pose proof (grows_main b (mk_ins [c] dots None None (rule_precedence r) [] Main (Some r)) b') as GM. revert GM.
  unfold insert_character, backward_only, forward_only.
  assert (F : forall b0, b0 = set_chars b (chars_insert compat (b_chars b) c (resolved_new [c] dots 1 Main (Some r))) ->
     grows b b0 [] [] [] [(c, resolved_new [c] dots 1 Main (Some r))] [] [] [] None).
  { intros b0 ->. constructor; cbn [set_chars b_trie b_nocross b_comp6 b_chars b_match b_context b_digits b_undefined trie_insert_all fold_left fst snd]; rewrite ?app_nil_r; auto. }
  revert F. destruct d; cbn [is_backward].
  - intros F _ [= <-]. apply F. reflexivity.
  - intros _ GM. exact GM.
Qed.
Lemma grows_indicator r dots b b' : backward_indicator compat d x rules r dots b = TOk b' ->
  grows b b' (if (is_backward d && negb (is_letter_dots d rules dots))%bool
              then [mk_ins [] dots None None (rule_precedence r) [] Main (Some r)] else []) [] [] [] [] [] [] None.
Proof.
  unfold backward_indicator. destruct (is_backward d && negb (is_letter_dots d rules dots))%bool.
  - apply grows_main.
  - intros [= <-]. apply grows_refl.
Qed.
Lemma grows_digit r c dots b : grows b (digit_override d rules r c dots b) [] [] [] [] [] []
  (match dots with
   | [cell] => if (is_backward d && is_letter_dots d rules dots)%bool
               then [(cell, resolved_new dots [c] 1 Main (Some r))] else []
   | _ => []
   end) None.
Proof.
  unfold digit_override. destruct d; cbn [is_backward andb].
  - destruct dots as [|cell [|y z]]; apply grows_refl.
  - destruct dots as [|cell [|y z]]; try apply grows_refl.
    destruct (is_letter_dots Backward rules [cell]); [|apply grows_refl].
    constructor; cbn [set_digits b_trie b_nocross b_comp6 b_chars b_match b_context b_digits b_undefined trie_insert_all fold_left rev app]; rewrite ?app_nil_r; auto.
Qed.

Lemma step1_grows b r b' : compile_step1 compat d x b r = TOk b' ->
  grows b b' (backward_only d (character_entries first_characters r)) [] []
    (forward_only (char_pieces first_characters r)) [] [] [] None.
Proof.
  destruct r; cbn [compile_step1 first_characters]; try (apply grows_character).
  all: intros [= <-]; unfold backward_only, forward_only, character_entries, char_pieces; cbn [first_characters map];
    destruct (is_backward d); apply grows_refl.
Qed.
Lemma step2_grows b r b' : compile_step2 compat read_dictionary d x rules b r = TOk b' ->
  grows b b' (main_entries_of d x rules r) (if is_nocross r then word_entries x r else []) (comp6_entries_of x r)
    (forward_only (char_pieces (other_characters d x rules) r)) (match_entries x r) (context_entries x r)
    (digit_entries d rules r) (undef_of r).
Proof.
  assert (W : compile_step2 compat read_dictionary d x rules b r = (tdo l <- word_insertions x r; insert_rules compat d x r b l) ->
     other_characters d x rules r = [] -> indicator_entries d rules r = [] -> comp6_entries_of x r = [] ->
     match_entries x r = [] -> context_entries x r = [] -> digit_entries d rules r = [] -> undef_of r = None ->
     compile_step2 compat read_dictionary d x rules b r = TOk b' ->
     grows b b' (main_entries_of d x rules r) (if is_nocross r then word_entries x r else []) (comp6_entries_of x r)
    (forward_only (char_pieces (other_characters d x rules) r)) (match_entries x r) (context_entries x r)
    (digit_entries d rules r) (undef_of r)).
  { intros E0 E1 E2 E3 E4 E5 E6 E7 E. rewrite E0 in E. destruct (word_insertions x r) as [l| |] eqn:EW; try discriminate.
    cbn [tbind] in E. apply grows_rules in E.
    unfold main_entries_of, character_entries, char_pieces, backward_only, forward_only, word_entries.
    rewrite E1, E2, E3, E4, E5, E6, E7, EW. cbn [map app]. destruct (is_backward d); exact E. }
  assert (C : forall c dots, compile_step2 compat read_dictionary d x rules b r = insert_character compat d x r c dots b ->
     word_entries x r = [] -> is_nocross r = false ->
     other_characters d x rules r = [(c, dots)] -> indicator_entries d rules r = [] -> comp6_entries_of x r = [] ->
     match_entries x r = [] -> context_entries x r = [] -> digit_entries d rules r = [] -> undef_of r = None ->
     compile_step2 compat read_dictionary d x rules b r = TOk b' ->
     grows b b' (main_entries_of d x rules r) (if is_nocross r then word_entries x r else []) (comp6_entries_of x r)
    (forward_only (char_pieces (other_characters d x rules) r)) (match_entries x r) (context_entries x r)
    (digit_entries d rules r) (undef_of r)).
  { intros c dots E0 EW EN E1 E2 E3 E4 E5 E6 E7 E. rewrite E0 in E. apply grows_character in E.
    unfold main_entries_of, character_entries, char_pieces.
    rewrite E1, E2, E3, E4, E5, E6, E7, EW, EN. cbn [map app fst snd]. rewrite app_nil_r. exact E. }
  assert (IN : forall dots, compile_step2 compat read_dictionary d x rules b r = backward_indicator compat d x rules r dots b ->
     word_entries x r = [] -> is_nocross r = false ->
     other_characters d x rules r = [] -> indicator_entries d rules r =
        (if (is_backward d && negb (is_letter_dots d rules dots))%bool
         then [mk_ins [] dots None None (rule_precedence r) [] Main (Some r)] else []) -> comp6_entries_of x r = [] ->
     match_entries x r = [] -> context_entries x r = [] -> digit_entries d rules r = [] -> undef_of r = None ->
     compile_step2 compat read_dictionary d x rules b r = TOk b' ->
     grows b b' (main_entries_of d x rules r) (if is_nocross r then word_entries x r else []) (comp6_entries_of x r)
    (forward_only (char_pieces (other_characters d x rules) r)) (match_entries x r) (context_entries x r)
    (digit_entries d rules r) (undef_of r)).
  { intros dots E0 EW EN E1 E2 E3 E4 E5 E6 E7 E. rewrite E0 in E. apply grows_indicator in E.
    unfold main_entries_of, character_entries, char_pieces, backward_only, forward_only.
    rewrite E1, E2, E3, E4, E5, E6, E7, EW, EN. cbn [map app fst snd]. rewrite app_nil_r. destruct (is_backward d); exact E. }
  destruct r;
    try (apply W; reflexivity);
    try (eapply C; reflexivity);
    try (eapply IN; reflexivity); clear W C IN.
  - (* include hyphenation *) cbn [compile_step2]. destruct (read_dictionary path) as [h| |]; try discriminate. intros [= <-].
    unfold main_entries_of, character_entries, char_pieces, backward_only, forward_only, word_entries.
    cbn. destruct (is_backward d); apply grows_refl.
  - (* undefined *) cbn [compile_step2]. intros [= <-].
    unfold main_entries_of, character_entries, char_pieces, backward_only, forward_only, word_entries.
    cbn. destruct (is_backward d); constructor; cbn; rewrite ?app_nil_r; reflexivity.
  - (* digit *) cbn [compile_step2].
    destruct (if mem c (litdigit_chars d rules) then TOk b else insert_character compat d x (RDigit c dots k) c dots b) as [b1| |] eqn:E1; try discriminate.
    cbn [tbind]. intros [= <-].
    assert (G1 : grows b b1 (main_entries_of d x rules (RDigit c dots k)) [] [] (forward_only (char_pieces (other_characters d x rules) (RDigit c dots k))) [] [] [] None).
    { unfold main_entries_of, character_entries, char_pieces. cbn [other_characters indicator_entries is_nocross app].
      unfold word_entries. cbn [word_insertions]. rewrite app_nil_r.
      destruct (mem c (litdigit_chars d rules)).
      - injection E1 as <-. unfold backward_only, forward_only. cbn. destruct (is_backward d); apply grows_refl.
      - apply grows_character in E1. exact E1. }
    pose proof (grows_trans _ _ _ _ _ _ _ _ _ _ _ _ _ _ _ _ _ _ _ G1 (grows_digit (RDigit c dots k) c dots b1)) as G.
    rewrite !app_nil_r in G. exact G.
  - (* base *) cbn [compile_step2]. intros E.
    unfold main_entries_of, character_entries, char_pieces, word_entries.
    cbn [other_characters indicator_entries is_nocross app word_insertions comp6_entries_of match_entries context_entries digit_entries undef_of].
    destruct (defs_get (x_defs x) base) as [t|].
    + apply grows_character in E. rewrite app_nil_r. exact E.
    + destruct compat; [|discriminate]. injection E as <-. unfold backward_only, forward_only. cbn. destruct (is_backward d); apply grows_refl.
  - (* litdigit *) cbn [compile_step2].
    destruct (insert_character compat d x (RLitdigit c dots k) c dots b) as [b1| |] eqn:E1; try discriminate.
    cbn [tbind]. intros [= <-]. apply grows_character in E1.
    pose proof (grows_trans _ _ _ _ _ _ _ _ _ _ _ _ _ _ _ _ _ _ _ E1 (grows_digit (RLitdigit c dots k) c dots b1)) as G.
    unfold main_entries_of, character_entries, char_pieces, word_entries.
    cbn [other_characters indicator_entries is_nocross app word_insertions comp6_entries_of match_entries context_entries digit_entries undef_of map fst snd].
    rewrite !app_nil_r in *. exact G.
  - (* comp6 *) cbn [compile_step2]. destruct (dots_of x dots chars) as [t| |] eqn:Ed; try discriminate. cbn [tbind].
    destruct (trie_insert compat tctx d (b_comp6 b) _) as [n| |] eqn:Ea; try discriminate. cbn [tbind]. intros [= <-].
    unfold main_entries_of, character_entries, char_pieces, word_entries, backward_only, forward_only.
    cbn [other_characters indicator_entries is_nocross app word_insertions comp6_entries_of match_entries context_entries digit_entries undef_of map fst snd].
    rewrite Ed. destruct (is_backward d); constructor; cbn [set_comp6 b_trie b_nocross b_comp6 b_chars b_match b_context b_digits b_undefined trie_insert_all fold_left app rev tbind]; rewrite ?app_nil_r, ?Ea; reflexivity.
  - (* context *) cbn [compile_step2]. destruct (context_insert x test action _ Main) as [q| |] eqn:Ed; try discriminate. cbn [tbind]. intros [= <-].
    unfold main_entries_of, character_entries, char_pieces, word_entries, backward_only, forward_only.
    cbn [other_characters indicator_entries is_nocross app word_insertions comp6_entries_of match_entries context_entries digit_entries undef_of map fst snd].
    rewrite Ed. destruct (is_backward d); constructor; cbn [set_context b_trie b_nocross b_comp6 b_chars b_match b_context b_digits b_undefined trie_insert_all fold_left app rev tbind]; rewrite ?app_nil_r; reflexivity.
  - (* match *) cbn [compile_step2]. destruct (dots_of x dots chars) as [t| |] eqn:Ed; try discriminate. cbn [tbind].
    destruct (match_insert (x_chars x) pre chars post t _) as [q| |] eqn:Em; try discriminate. cbn [tbind]. intros [= <-].
    unfold main_entries_of, character_entries, char_pieces, word_entries, backward_only, forward_only.
    cbn [other_characters indicator_entries is_nocross app word_insertions comp6_entries_of match_entries context_entries digit_entries undef_of map fst snd].
    rewrite Ed, Em. destruct (is_backward d); constructor; cbn [set_match b_trie b_nocross b_comp6 b_chars b_match b_context b_digits b_undefined trie_insert_all fold_left app rev tbind]; rewrite ?app_nil_r; reflexivity.
Qed.
Lemma fold1_grows l : forall b b', compile_fold (compile_step1 compat d x) b l = TOk b' ->
  grows b b' (flat_map (fun r => backward_only d (character_entries first_characters r)) l) [] []
    (flat_map (fun r => forward_only (char_pieces first_characters r)) l) [] [] [] None.
Proof.
  induction l as [|r l IH]; cbn [compile_fold]; intros b b' E; [injection E as <-; apply grows_refl|].
  destruct (compile_step1 compat d x b r) as [b1| |] eqn:E1; try discriminate. cbn [tbind] in E.
  apply step1_grows in E1. apply IH in E. exact (grows_trans _ _ _ _ _ _ _ _ _ _ _ _ _ _ _ _ _ _ _ E1 E).
Qed.
Definition undefs (u : option str) (l : list rule) : option str :=
  fold_left (fun u r => match r with RUndefined dots => Some dots | _ => u end) l u.
Lemma undefs_some l : forall u, undefs u l = match undefs None l with Some t => Some t | None => u end.
Proof.
  unfold undefs. induction l as [|r l IH]; intros u; [reflexivity|]. cbn [fold_left]. rewrite IH, (IH (match r with RUndefined dots => Some dots | _ => None end)).
  destruct (fold_left _ l None); [reflexivity|]. destruct r; reflexivity.
Qed.
Lemma undefs_cons r l : undefs None (r :: l) = match undefs None l with Some t => Some t | None => undef_of r end.
Proof. change (undefs None (r :: l)) with (undefs (match r with RUndefined dots => Some dots | _ => None end) l).
  rewrite undefs_some. destruct (undefs None l); [reflexivity|]. destruct r; reflexivity.
Qed.
Lemma fold2_grows l : forall b b', compile_fold (compile_step2 compat read_dictionary d x rules) b l = TOk b' ->
  grows b b' (flat_map (main_entries_of d x rules) l) (flat_map (fun r => if is_nocross r then word_entries x r else []) l)
    (flat_map (comp6_entries_of x) l) (flat_map (fun r => forward_only (char_pieces (other_characters d x rules) r)) l)
    (flat_map (match_entries x) l) (flat_map (context_entries x) l) (flat_map (digit_entries d rules) l) (undefs None l).
Proof.
  induction l as [|r l IH]; cbn [compile_fold]; intros b b' E; [injection E as <-; apply grows_refl|].
  destruct (compile_step2 compat read_dictionary d x rules b r) as [b1| |] eqn:E1; try discriminate. cbn [tbind] in E.
  apply step2_grows in E1. apply IH in E. pose proof (grows_trans _ _ _ _ _ _ _ _ _ _ _ _ _ _ _ _ _ _ _ E1 E) as G.
  cbn [flat_map]. replace (undefs None (r :: l)) with (match undefs None l with Some t => Some t | None => undef_of r end); [exact G|].
  symmetry. apply undefs_cons.
Qed.
Lemma forward_flat {A} (f : rule -> list A) l : flat_map (fun r => forward_only (f r)) l = forward_only (flat_map f l).
Proof.
  unfold forward_only. destruct (is_backward d); [|reflexivity]. induction l as [|r l IH]; [reflexivity|exact IH].
Qed.
(** lookup in the character table *)
Lemma assoc_app {A} (c : char) (a b : list (char * A)) :
  assoc c (a ++ b) = match assoc c a with Some t => Some t | None => assoc c b end.
Proof.
  induction a as [|[k v] a IH]; [reflexivity|]. cbn [app assoc]. destruct (N.eqb c k); [reflexivity|exact IH].
Qed.
Lemma add_lookup c l : forall m, assoc c (add l m) =
  if compat then match assoc c m with Some t => Some t | None => assoc c l end
  else match assoc c (rev l) with Some t => Some t | None => assoc c m end.
Proof.
  induction l as [|[k v] l IH]; intros m; cbn [fold_left fst snd rev assoc].
  - destruct compat; destruct (assoc c m); reflexivity.
  - rewrite IH. unfold chars_insert. destruct compat.
    + destruct (assoc k m) as [w|] eqn:Ek.
      * destruct (assoc c m) eqn:Ec; [reflexivity|]. destruct (N.eqb_spec c k); [congruence|reflexivity].
      * cbn [assoc]. destruct (N.eqb_spec c k) as [->|Hk]; [rewrite Ek; reflexivity|reflexivity].
    + rewrite assoc_app. cbn [assoc]. destruct (assoc c (rev l)); [reflexivity|]. destruct (N.eqb c k); reflexivity.
Qed.
(** the compiled table *)
Theorem compile_spec p : primary_compile compat read_dictionary d x rules = TOk p ->
  ins_all node_empty (main_entries d x rules) = TOk (p_trie p) /\
  ins_all node_empty (nocross_entries x rules) = TOk (p_nocross p) /\
  ins_all node_empty (comp6_entries x rules) = TOk (p_comp6 p) /\
  (forall c, assoc c (p_chars p) = character_lookup d x rules compat c) /\
  p_match p = flat_map (match_entries x) rules /\ p_context p = flat_map (context_entries x) rules /\
  p_digits p = digit_table d rules /\ p_undefined p = undefined_dots rules /\ p_dir p = d /\ p_fallback p = x_defs x.
Proof.
  unfold primary_compile. destruct (compile_fold (compile_step1 compat d x) builder_new rules) as [b1| |] eqn:E1; try discriminate.
  cbn [tbind]. destruct (compile_fold _ b1 rules) as [b2| |] eqn:E2; try discriminate. cbn [tbind]. intros [= <-].
  apply fold1_grows in E1. apply fold2_grows in E2.
  destruct (grows_trans _ _ _ _ _ _ _ _ _ _ _ _ _ _ _ _ _ _ _ E1 E2) as [G1 G2 G3 G4 G5 G6 G7 G8].
  cbn [p_trie p_nocross p_comp6 p_chars p_match p_context p_digits p_undefined p_dir p_fallback app] in *.
  cbn [builder_new b_trie b_nocross b_comp6 b_chars b_match b_context b_digits b_undefined app] in *.
  repeat split; auto.
  - intros c. rewrite G4, add_lookup. cbn [assoc]. unfold character_lookup, character_table.
    rewrite !forward_flat. unfold forward_only. destruct (is_backward d); [destruct compat; reflexivity|]. destruct compat; [reflexivity|].
    match goal with |- match ?o with _ => _ end = _ => destruct o; reflexivity end.
  - rewrite G7, app_nil_r. reflexivity.
  - rewrite G8. unfold undefined_dots, undefs. destruct (fold_left _ rules None); reflexivity.
Qed.
End Spec.
