(** C13, C14: characters the table does not define. *)
From Coq Require Import Permutation.
From Verif Require Import Base BaseProofs RuleModel TranslationModel TableModel BrailleModel TrieModel PropTrie
  HyphenationModel LoopModel PrimaryProofs CompileModel CompileSpec MainTable ConstraintModel ConstraintSpec ConstraintProofs
  IndicatorModel EmphSpec MainSpec TraceSpec MainPass StepFacts TraceProofs PropMain UndefinedSpec PropMainExamples.

(** ** The numeral *)
Lemma hex_digit_lower v : (v < 16)%N -> lower_digit (hex_digit v) v.
Proof. intros H. unfold lower_digit, hex_digit. destruct (N.ltb_spec v 10); [left|right]; lia. Qed.
Lemma numeral_inj_digit c v c' v' : lower_digit c v -> lower_digit c' v' -> c = c' -> v = v'.
Proof. unfold lower_digit. unfold char in *. lia. Qed.
Lemma hex_loop_numeral fuel : forall v acc, (v < 16 ^ N.of_nat fuel)%N -> 0 < fuel ->
  exists s, hex_loop fuel v acc = s ++ acc /\ numeral s v.
Proof.
  induction fuel as [|f IH]; intros v acc L F; [lia|]. cbn [hex_loop].
  destruct (N.ltb_spec v 16) as [G|G].
  - exists [hex_digit (v mod 16)]. split; [reflexivity|]. rewrite N.mod_small by exact G. constructor. apply hex_digit_lower, G.
  - assert (F1 : 0 < f). { destruct f; [|lia]. cbn in L. lia. }
    destruct (IH (v / 16)%N (hex_digit (v mod 16) :: acc)) as (s & E & N); [|exact F1|].
    + rewrite Nat2N.inj_succ, N.pow_succ_r in L by lia. apply N.div_lt_upper_bound; lia.
    + exists (s ++ [hex_digit (v mod 16)]). split; [rewrite E, <- app_assoc; reflexivity|].
      rewrite (N.div_mod v 16) at 2 by lia. constructor; [exact N| |apply hex_digit_lower, N.mod_lt; lia].
      intros Z. apply N.div_small_iff in Z; lia.
Qed.
Lemma escape_numeral c : (c < 16 ^ 6)%N -> exists s, escape_char c = 92%N :: 120%N :: s /\ numeral s c.
Proof.
  intros H. destruct (hex_loop_numeral 6 c []) as (s & E & N); [exact H|lia|]. exists s. rewrite app_nil_r in E.
  unfold escape_char. rewrite E. auto.
Qed.
Lemma spell_spelled defs s out : spell defs s = Ok out -> spelled defs s out.
Proof.
  revert out. induction s as [|c s IH]; intros out; cbn [spell].
  - intros [= <-]. exists []. split; [constructor|reflexivity].
  - destruct (defs_get defs c) as [t|] eqn:E.
    + cbn [bind]. destruct (spell defs s) as [o| |]; try discriminate. cbn [bind]. intros [= <-].
      destruct (IH o eq_refl) as (parts & F & ->). exists (t :: parts). split; [|reflexivity]. constructor; [left; exact E|exact F].
    + destruct (fallback c) as [f| |] eqn:EF; try discriminate. cbn [bind]. destruct (spell defs s) as [o| |]; try discriminate. cbn [bind]. intros [= <-].
      destruct (IH o eq_refl) as (parts & F & ->). exists ([f] :: parts). split; [|reflexivity]. constructor; [right; eauto|exact F].
Qed.

(** ** C13 *)
(** No character makes the translation of characters fail. *)
Theorem C13_every_character_has_a_translation : forall compat d x rules c,
  exists u, character_offers compat d x rules c u /\ r_input u = [c] /\ r_length u = 1.
Proof.
  intros compat d x rules c. destruct (character_lookup d x rules compat c) as [t|] eqn:E.
  - exists t. assert (H : character_offers compat d x rules c t) by (unfold character_offers; rewrite E; reflexivity).
    split; [exact H|]. unfold character_lookup in E. apply assoc_in in E.
    assert (HI : In (c, t) (character_table d x rules)) by (destruct compat; [exact E|apply in_rev, E]).
    apply character_table_in in HI. destruct HI as (_ & L & I & _). auto.
  - unfold character_offers. rewrite E. destruct (undefined_dots rules) as [dots|].
    + eexists. split; [reflexivity|]. cbn. auto.
    + destruct (handle_undefined_ok (x_defs x) c) as (h & H). eexists. split; [exists h; split; [exact H|reflexivity]|]. cbn. auto.
Qed.
Print Assumptions C13_every_character_has_a_translation.

Section Main.
Variable is_alphabetic : char -> bool.
Variable compat : bool.
Variable read_dictionary : str -> tres hyph.
Variable d : direction.
Variable x : context.
Variable rules : list rule.
Variable lower upper : char -> list char.
Variable sort : list event -> res (list event).
Variable m : main_table.
Hypothesis B : main_built is_alphabetic compat read_dictionary d x rules m.
Hypothesis DR : dictionaries_read read_dictionary.
Hypothesis SR : sort_rearranges sort.
Notation trace := (main_trace lower upper sort m).

(** A piece that no rule accounts for stands for one character that has no definition of its
    own and for which there is no rule; it is the dots of the last undefined rule or, if the
    table has none, the spelling of its code. *)
Theorem C13_pieces_without_a_rule : forall input spans out a t b,
  trace input spans = Ok out -> out = a ++ t :: b -> r_origin t = None ->
  exists c, nth_error input (TraceSpec.position a) = Some c /\ r_input t = [c] /\ r_length t = 1 /\
    character_lookup d x rules compat c = None /\
    match undefined_dots rules with
    | Some dots => r_output t = dots
    | None => (c < 16 ^ 6)%N -> exists digits, numeral digits c /\ spelled (x_defs x) (lit "\x" ++ digits) (r_output t)
    end.
Proof.
  intros input spans out a t b E Eo Or.
  destruct (pass_traced _ _ _ _ _ _ lower upper sort m B DR input spans out SR E) as (sp & em & caps & ind & lim & ts & T).
  assert (S : is_sign t = false) by (unfold is_sign; rewrite Or; apply andb_false_r).
  destruct (piece _ _ _ _ _ _ _ _ _ _ B _ _ _ _ _ _ _ _ _ T a t b Eo) as [(X & _)|(_ & ts1 & y & ts2 & Ets & R & H & Et & W)]; [congruence|].
  destruct (step_at _ _ _ _ _ _ _ _ _ _ B _ _ _ _ _ _ _ _ _ T _ _ _ Ets) as (_ & I & _).
  destruct (step_facts compat read_dictionary d x rules lower _ (mb_rules _ _ _ _ _ _ _ B) lim input ts1 y I H) as [_ F].
  destruct (shown_fields upper d lim (TraceSpec.position a) y) as (L & IN & O & _). rewrite <- Et in L, IN, O.
  destruct y as [[| |] u]; cbn [snd] in *.
  - destruct F as (_ & r & _ & Or' & _). congruence.
  - destruct F as (r & _ & Or' & _). congruence.
  - destruct H as ((c & rr & EL & CO) & _). exists c. unfold MainSpec.left in EL. rewrite R in EL.
    split. { rewrite <- (firstn_skipn (TraceSpec.position a) input), EL, nth_error_app2; rewrite firstn_length; [|lia]. unfold TraceSpec.position in *. rewrite Nat.min_l, Nat.sub_diag by (rewrite R in I; exact I). reflexivity. }
    pose proof (character_facts _ _ _ _ _ _ (mb_rules _ _ _ _ _ _ _ B) _ _ CO) as ((_ & L1 & I1 & _) & _).
    split; [rewrite IN; exact I1|]. split; [rewrite L; exact L1|]. cbn [by_character rule_sources] in CO. unfold character_offers in CO.
    destruct (character_lookup d x rules compat c) as [t'|] eqn:EC.
    + exfalso. unfold character_lookup in EC. apply assoc_in in EC.
      assert (HI : In (c, t') (character_table d x rules)) by (destruct compat; [exact EC|apply in_rev, EC]).
      apply character_table_in in HI. destruct HI as (_ & _ & _ & _ & r & _ & Or'). congruence.
    + split; [reflexivity|]. cbn [shown] in Et. subst t. destruct (undefined_dots rules) as [dots|].
      * rewrite CO. reflexivity.
      * destruct CO as (h & Hh & ->). intros LT. destruct (escape_numeral c LT) as (s & Es & N). exists s. split; [exact N|].
        cbn [r_output resolved_new]. unfold handle_undefined in Hh. rewrite Es in Hh. apply spell_spelled. exact Hh.
Qed.
End Main.
Print Assumptions C13_pieces_without_a_rule.

(** ** C14 *)
(** the cells of the hexadecimal digits are different except for 3 and 9 *)
Definition nine_as_three (c : char) : char := if N.eqb c 57 then 51%N else c.
Lemma fallback_inj c c' : In c (map fst nabcc) -> In c' (map fst nabcc) ->
  fallback c = fallback c' <-> nine_as_three c = nine_as_three c'.
Proof.
  simpl. intros H H'.
  repeat (destruct H as [<-|H]; [repeat (destruct H' as [<-|H']; [vm_compute; split; (reflexivity || discriminate)|]); destruct H'|]).
  destruct H.
Qed.
Lemma spell_inj defs : (forall c, defs_get defs c = None) -> forall s s',
  (forall c, In c s -> In c (map fst nabcc)) -> (forall c, In c s' -> In c (map fst nabcc)) ->
  spell defs s = spell defs s' <-> map nine_as_three s = map nine_as_three s'.
Proof.
  intros ND. induction s as [|c s IH]; intros [|c' s'] H H'; cbn [spell map]; rewrite ?ND.
  - tauto.
  - destruct (fallback_ok c') as (f & ->); [apply H'; left; reflexivity|]. cbn [bind].
    destruct (spell_ok defs s') as (t & ->); [intros; apply H'; right; assumption|]. cbn [bind]. split; discriminate.
  - destruct (fallback_ok c) as (f & ->); [apply H; left; reflexivity|]. cbn [bind].
    destruct (spell_ok defs s) as (t & ->); [intros; apply H; right; assumption|]. cbn [bind]. split; discriminate.
  - pose proof (fallback_inj c c' (H c (or_introl eq_refl)) (H' c' (or_introl eq_refl))) as FI.
    specialize (IH s' (fun z Z => H z (or_intror Z)) (fun z Z => H' z (or_intror Z))).
    destruct (fallback_ok c) as (f & Ef); [apply H; left; reflexivity|]. destruct (fallback_ok c') as (f' & Ef'); [apply H'; left; reflexivity|].
    destruct (spell_ok defs s) as (t & Et); [intros; apply H; right; assumption|].
    destruct (spell_ok defs s') as (t' & Et'); [intros; apply H'; right; assumption|].
    rewrite Ef, Ef', Et, Et' in *. cbn [bind app]. split.
    + intros [= -> ->]. f_equal; [apply FI|apply IH]; reflexivity.
    + intros E. injection E as E1 E2. apply FI in E1. apply IH in E2. congruence.
Qed.
Lemma escape_in c : forall y, In y (escape_char c) -> In y (map fst nabcc).
Proof.
  intros y [<-|[<-|H]]; [vm_compute; tauto|vm_compute; tauto|]. revert H. apply hex_loop_in. intros z [].
Qed.
(** Without definitions two characters get the same braille iff their codes differ at most
    in threes and nines. *)
Theorem C14_same_braille_iff : forall defs c c' s s',
  (forall y, defs_get defs y = None) -> (c < 16 ^ 6)%N -> (c' < 16 ^ 6)%N -> numeral s c -> numeral s' c' ->
  (handle_undefined defs c = handle_undefined defs c' <-> map nine_as_three s = map nine_as_three s').
Proof.
  intros defs c c' s s' ND L L' N N'.
  assert (U : forall s1 v1, numeral s1 v1 -> forall s2, numeral s2 v1 -> s1 = s2).
  { clear. induction 1 as [c v D|s v c w N IH NZ D]; intros s2 N2.
    - inversion N2 as [c2 v2 D2|s3 v3 c3 w3 N3 NZ3 D3]; subst.
      + f_equal. unfold lower_digit in *. unfold char in *. lia.
      + exfalso. subst. revert D. unfold lower_digit. try (change (v = 16 * v3 + w3)%N in H0). unfold char in *. lia.
    - inversion N2 as [c2 v2 D2|s3 v3 c3 w3 N3 NZ3 D3]; subst.
      + exfalso. revert D D2. unfold lower_digit. try (change (v = 16 * v3 + w3)%N in H0). unfold char in *. lia.
      + change (16 * v3 + w3 = 16 * v + w)%N in H0. assert (v3 = v /\ w3 = w) as [-> ->] by (unfold lower_digit in *; unfold char in *; lia). f_equal; [apply IH, N3|].
        f_equal. unfold lower_digit in *. unfold char in *. lia. }
  destruct (escape_numeral c L) as (z & Ez & Nz). destruct (escape_numeral c' L') as (z' & Ez' & Nz').
  rewrite (U _ _ N _ Nz), (U _ _ N' _ Nz'). unfold handle_undefined.
  rewrite (spell_inj defs ND _ _ (escape_in c) (escape_in c')), Ez, Ez'. cbn [map]. split; [intros [= E]; exact E|intros ->; reflexivity].
Qed.
Print Assumptions C14_same_braille_iff.
(** a snowman and a sun: \x2603 and \x2609 *)
Theorem C14_different_braille_refuted :
  handle_undefined [] 0x2603%N = handle_undefined [] 0x2609%N /\
  ex_run Forward [] [0x2603%N] [] = Some [([0x2603%N], bs [51; 45; 6; 22; 52; 18]%N)] /\
  ex_run Forward [] [0x2609%N] [] = Some [([0x2609%N], bs [51; 45; 6; 22; 52; 18]%N)].
Proof. vm_compute. auto. Qed.
Print Assumptions C14_different_braille_refuted.
Example C13_example :
  ex_run Forward (ex_letters ++ [RDigit (ch "0") (b 26) K]) (lit "ae") [] =
    Some [(lit "a", b 1); (lit "e", bs [51; 45; 22; 34]%N)] /\
  ex_run Forward (ex_letters ++ [RUndefined (b 63)]) (lit "ae") [] = Some [(lit "a", b 1); (lit "e", b 63)] /\
  ex_run Forward (ex_letters ++ [RDigit (ch "6") (b 11) K]) (lit "f") [] = Some [(lit "f", bs [51; 45; 11; 11]%N)].
Proof. vm_compute. auto. Qed.
