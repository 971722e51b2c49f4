(** C15 (lookup), C16 (rival rules), C17 (length of offers), C44 (case). *)
From Coq Require Import Permutation.
From Verif Require Import Base BaseProofs RuleModel TranslationModel TranslationProofs
  TableModel TableProofs TrieModel TrieProofs.

(** [l] are the insertions made when the table was compiled (text, dots, boundary
    conditions, constraints); [shuffle n n'] allows any iteration order of the hash maps.
    [applies]: the text of the rule is the lower-cased next part of the input and every
    boundary condition holds of the neighbouring characters (a missing neighbour counts as
    a space).  [in_force]: the rule prevails over its rivals (rules with the same text and
    conditions), see C16.  Nothing else is offered and nothing is missed. *)
Theorem C15_lookup_exact : forall lower compat ctx d l n n' input prev t,
  (forall a, In a l -> well_oriented a) ->
  trie_insert_all compat ctx d node_empty l = TOk n -> shuffle n n' ->
  (In t (find_translations lower n' input prev) <->
   exists full a, in_force compat ctx d l full a /\ applies lower ctx d a input prev /\
                  t = offer ctx d full a).
Proof. intros; eapply find_spec; eauto. Qed.
Print Assumptions C15_lookup_exact.

(** The weight of an offer with full weight is the number of characters plus one for each
    boundary condition. *)
Theorem C15_weight : forall ctx d a, well_oriented a ->
  r_weight (offer ctx d true a) =
    length (sought d a) + length (pre_conditions a) + length (post_conditions a) /\
  r_weight (offer ctx d false a) = length (sought d a) /\
  (forall full, r_input (offer ctx d full a) = sought d a /\
                r_output (offer ctx d full a) = given d a /\
                r_length (offer ctx d full a) = length (sought d a) /\
                r_offset (offer ctx d full a) = 0 /\ r_origin (offer ctx d full a) = i_origin a).
Proof.
  intros ctx d a W. split; [exact (ins_weight_eq ctx d a W)|]. split; [reflexivity|].
  intros full. repeat split.
Qed.
Print Assumptions C15_weight.

(** What the text condition means: the matched part of the input, character by character
    in lower case, is the text of the rule. *)
Theorem C15_text_condition : forall lower ctx d a input prev,
  applies lower ctx d a input prev ->
  exists txt rest, input = txt ++ rest /\ map lower txt = map (fun x => [x]) (sought d a) /\
    (forall ks, In ks (pre_conditions a) -> neighbour_in ctx ks prev) /\
    (forall ks, In ks (post_conditions a) -> neighbour_in ctx ks (hd_error rest)).
Proof.
  intros lower ctx d a input prev (rest & H & H1 & H2).
  destruct (text_matches_lower _ _ _ _ H) as (txt & -> & E). exists txt, rest. auto.
Qed.
Print Assumptions C15_text_condition.

(** Insertion panics iff the text to be matched is empty. *)
Theorem C15_insert_panics_only_on_empty_text : forall compat ctx d l,
  (trie_insert_all compat ctx d node_empty l = TPanic <-> exists a, In a l /\ sought d a = []) /\
  (forall e, trie_insert_all compat ctx d node_empty l <> TErr e).
Proof.
  intros compat ctx d l.
  change (sought d) with (ins_from d).
  assert (D : all_nonempty d l \/ ~ all_nonempty d l /\ exists a, In a l /\ ins_from d a = []).
  { clear. induction l as [|a r [IH|(IH & b & Hb & E)]].
    - left. intros a [].
    - destruct (ins_from d a) eqn:E.
      + right. split; [intros H; apply (H a); simpl; auto|]. exists a; simpl; auto.
      + left. intros b [<-|Hb]; [congruence|auto].
    - right. split; [intros H; apply IH; intros x Hx; apply H; simpl; auto|]. exists b; simpl; auto. }
  destruct D as [D|(D & a & Ha & Ea)].
  - rewrite (insert_all_ok compat ctx d l node_empty D). split; [|discriminate].
    split; [discriminate|]. intros (a & Ha & Ea). exfalso. apply (D a); auto.
  - rewrite (insert_all_panic compat ctx d l node_empty D). split; [|discriminate]. split; eauto.
Qed.
Print Assumptions C15_insert_panics_only_on_empty_text.

(** At most one of several rivals is ever offered. *)
Theorem C16_one_of_rivals : forall lower compat ctx d l n n' input prev,
  (forall a, In a l -> well_oriented a) ->
  trie_insert_all compat ctx d node_empty l = TOk n -> shuffle n n' ->
  exists os : list (bool * ins_args),
    find_translations lower n' input prev = map (fun o => offer ctx d (fst o) (snd o)) os /\
    (forall full a, In (full, a) os -> in_force compat ctx d l full a /\ applies lower ctx d a input prev) /\
    (forall i j fi ai fj aj, nth_error os i = Some (fi, ai) -> nth_error os j = Some (fj, aj) ->
       rivals ctx d ai aj -> i = j).
Proof. intros; eapply find_once; eauto. Qed.
Print Assumptions C16_one_of_rivals.

(** Default build: among rivals of default precedence the first one is in force, with its
    full weight. *)
Theorem C16_first_wins_among_default : forall ctx d l1 a l2,
  (forall b, In b l1 -> ~ rivals ctx d a b) ->
  (forall b, In b l2 -> rivals ctx d a b -> i_prec b = PDefault) ->
  in_force true ctx d (l1 ++ a :: l2) true a.
Proof.
  intros ctx d l1 a l2 H1 H2. exists l1, l2. split; auto. split.
  - split; [|auto]. intros b Hb Hr Hs. apply Hs. auto.
  - split; auto.
Qed.
Print Assumptions C16_first_wins_among_default.

(** Default build: a later rival of higher precedence displaces the others, and the last
    such rival is in force - but its weight is then the number of its characters only. *)
Theorem C16_last_of_higher_precedence : forall ctx d l1 a l2,
  i_prec a <> PDefault ->
  (forall b, In b l2 -> rivals ctx d a b -> i_prec b = PDefault) ->
  (exists b, In b l1 /\ rivals ctx d a b) ->
  in_force true ctx d (l1 ++ a :: l2) false a.
Proof.
  intros ctx d l1 a l2 Hp H2 (b & Hb & Hr). exists l1, l2. split; auto. split.
  - split; [|auto]. intros x Hx Hrx Hs. apply Hs. auto.
  - split; [discriminate|]. intros [H|[H _]]; [exfalso; apply (H b); auto|discriminate].
Qed.
Print Assumptions C16_last_of_higher_precedence.

(** Without the feature [backwards_compatibility] the last rival is in force. *)
Theorem C16_last_wins_without_compat : forall ctx d l1 a l2,
  (forall b, In b l2 -> ~ rivals ctx d a b) ->
  exists full, in_force false ctx d (l1 ++ a :: l2) full a.
Proof.
  intros ctx d l1 a l2 H2.
  assert (D : (forall b, In b l1 -> ~ rivals ctx d a b) \/ ~ (forall b, In b l1 -> ~ rivals ctx d a b)).
  { assert (Dr : forall b, rivals ctx d a b \/ ~ rivals ctx d a b).
    { intros b. unfold rivals. rewrite <- !map_resolve_same.
      destruct (list_eq_dec N.eq_dec (sought d a) (sought d b)); [|right; tauto].
      assert (Dc : forall x y : list rclasses, {x = y} + {x <> y}).
      { apply list_eq_dec. intros x y. destruct (rc_eqb x y) eqn:E; [left; apply rc_eqb_eq; auto|].
        right. intros H. apply rc_eqb_eq in H. congruence. }
      destruct (Dc (map (rc_resolve ctx) (pre_conditions a)) (map (rc_resolve ctx) (pre_conditions b))); [|right; tauto].
      destruct (Dc (map (rc_resolve ctx) (post_conditions a)) (map (rc_resolve ctx) (post_conditions b))); [left; auto|right; tauto]. }
    clear H2. induction l1 as [|x l1 [IH|IH]].
    - left. intros b [].
    - destruct (Dr x); [right; intros H'; apply (H' x); simpl; auto|left; intros b [<-|Hb]; auto].
    - right. intros H. apply IH. intros b Hb. apply H. simpl; auto. }
  destruct D as [D|D].
  - exists true. exists l1, l2. split; auto. split; auto. split; auto.
  - destruct (strong_dec a) as [Hs|Hs].
    + exists false. exists l1, l2. split; auto. split; auto. split; [discriminate|].
      intros [H|[_ H]]; contradiction.
    + exists true. exists l1, l2. split; auto. split; auto. split; auto.
Qed.
Print Assumptions C16_last_wins_without_compat.

(** "First rule wins" of the default build is false of two [always] rules: the second one
    is used.  And a [word] rule given twice loses its weight: the second has weight 3
    instead of 5, no more than an [always] rule. *)
Definition demo_lower (c : char) : list char := [c].
Definition demo_rule (c : char) : origin := Some (RAlways [c] Implicit no_constraints []).
Definition demo_always (out : char) : ins_args :=
  mk_ins (lit "foo") [out] None None PTranslation [] Main (demo_rule out).
Definition demo_word (out : char) : ins_args :=
  mk_ins (lit "foo") [out] (Some (TrStart [CSpace; CPunctuation])) (Some (TrEnd [CSpace; CPunctuation]))
         PTranslation [] Main (demo_rule out).
Definition demo_find (l : list ins_args) : list (str * nat) :=
  match trie_insert_all true [] Forward node_empty l with
  | TOk n => map (fun t => (r_output t, r_weight t)) (find_translations demo_lower n (lit "foo") None)
  | _ => []
  end.
Theorem C16_first_rule_wins_refuted :
  demo_find [demo_always 1%N; demo_always 2%N] = [([2%N], 3)] /\
  demo_find [demo_word 1%N] = [([1%N], 5)] /\
  demo_find [demo_word 1%N; demo_word 2%N] = [([2%N], 3)].
Proof. vm_compute. auto. Qed.
Print Assumptions C16_first_rule_wins_refuted.

(** The precedence order between indicators and translation rules (parser.rs:1024-1038:
    indicators rank below [Translation], "which must still win") is not observed: a later
    indicator displaces an [always] rule with the same dots. *)
Theorem C16_indicator_below_translation_refuted :
  demo_find [demo_always 1%N;
             mk_ins (lit "foo") [2%N] None None PIndicator [] Main (demo_rule 2%N)] = [([2%N], 3)].
Proof. vm_compute. auto. Qed.
Print Assumptions C16_indicator_below_translation_refuted.

(** Every offer stands for at least one and at most the remaining number of characters. *)
Theorem C17_offer_fits : forall lower compat ctx d l n n' input prev t,
  (forall a, In a l -> well_oriented a) ->
  trie_insert_all compat ctx d node_empty l = TOk n -> shuffle n n' ->
  In t (find_translations lower n' input prev) ->
  1 <= r_length t <= length input /\ r_offset t = 0 /\ r_length t = length (r_input t) /\
  r_length t <= r_weight t.
Proof.
  intros lower compat ctx d l n n' input prev t W E S H.
  pose proof E as E'.
  apply (C15_lookup_exact lower compat ctx d l n n' input prev t W E S) in H.
  destruct H as (full & a & (l1 & l2 & El & _) & (rest & Ht & _) & ->).
  assert (Ha : In a l) by (rewrite El; apply in_or_app; simpl; auto).
  assert (Hne : sought d a <> []).
  { intros Hf. assert (P : trie_insert_all compat ctx d node_empty l = TPanic)
      by (apply C15_insert_panics_only_on_empty_text; eauto). congruence. }
  apply text_matches_length in Ht. cbn [offer resolved_new r_length r_offset r_input r_weight].
  pose proof (ins_weight_eq ctx d a (W a Ha)) as Hw. unfold char in *.
  destruct (sought d a) as [|c r] eqn:Ef; [congruence|].
  repeat split; try (simpl in *; lia).
  destruct full; simpl in *; lia.
Qed.
Print Assumptions C17_offer_fits.

(** The case of the input is irrelevant for rules without boundary conditions ... *)
Theorem C44_case_of_input : forall lower ctx d a input input' prev prev',
  Forall2 (fun x y => lower x = lower y) input input' ->
  pre_conditions a = [] -> post_conditions a = [] ->
  (applies lower ctx d a input prev <-> applies lower ctx d a input' prev').
Proof.
  assert (G : forall lower ctx d a input input' prev prev',
    Forall2 (fun x y => lower x = lower y) input input' ->
    pre_conditions a = [] -> post_conditions a = [] ->
    applies lower ctx d a input prev -> applies lower ctx d a input' prev').
  { intros lower ctx d a input input' prev prev' F H1 H2 (rest & Ht & _).
    destruct (text_matches_case lower _ _ _ _ F Ht) as (rest' & Ht' & _).
    exists rest'. split; auto. rewrite H1, H2. split; intros ? []. }
  intros. split; eapply G; eauto. clear -H. induction H; constructor; auto.
Qed.
Print Assumptions C44_case_of_input.

(** ... and in general as far as their texts are concerned: only the classes of the two
    neighbours matter besides the lower-cased text. *)
Theorem C44_case_of_input_text : forall lower ctx d a input input' prev,
  Forall2 (fun x y => lower x = lower y) input input' ->
  applies lower ctx d a input prev ->
  (forall ks x y, In ks (post_conditions a) -> lower x = lower y -> In y input' ->
     neighbour_in ctx ks (Some x) -> neighbour_in ctx ks (Some y)) ->
  applies lower ctx d a input' prev.
Proof.
  intros lower ctx d a input input' prev F (rest & Ht & H1 & H2) HC.
  destruct (text_matches_case lower _ _ _ _ F Ht) as (rest' & Ht' & Fr).
  exists rest'. split; auto. split; auto. intros ks Hk. specialize (H2 ks Hk).
  destruct Fr as [|x y r r' Exy Fr]; auto. simpl in *. apply (HC ks x y); auto.
  destruct (text_matches_lower _ _ _ _ Ht') as (txt & -> & _). apply in_or_app; simpl; auto.
Qed.
Print Assumptions C44_case_of_input_text.

(** A rule whose text contains a character that is not its own lower case (an upper-case
    letter) is never offered, whatever the input. *)
Theorem C44_uppercase_rule_text_refuted : forall lower ctx d a x input prev,
  In x (sought d a) -> (forall c, lower c <> [x]) -> ~ applies lower ctx d a input prev.
Proof.
  intros lower ctx d a x input prev Hx Hl (rest & Ht & _).
  destruct (text_matches_lower _ _ _ _ Ht) as (txt & _ & E).
  assert (Hi : In [x] (map lower txt)).
  { replace (map lower txt) with (map (fun y : N => [y]) (sought d a)) by (symmetry; exact E).
    exact (in_map (fun y : N => [y]) (sought d a) x Hx). }
  apply in_map_iff in Hi. destruct Hi as (c & Ec & _). apply (Hl c). auto.
Qed.
Print Assumptions C44_uppercase_rule_text_refuted.

(** A non-trivial instance of all the hypotheses above: a trie with a word rule, an always
    rule and a prefix, shuffled, looked up in "Foo". *)
Definition ex_lower (c : char) : list char :=
  if (N.leb 65 c && N.leb c 90)%bool then [(c + 32)%N] else [c].
Definition ex_ctx : classes := [(CLetter, 111%N); (CLetter, 102%N); (CSpace, 32%N)].
Definition ex_ins : list ins_args :=
  [demo_word 1%N; demo_always 2%N; mk_ins (lit "fo") [3%N] None (Some (TrEnd [CLetter])) PTranslation [] Main None].
Example C15_example :
  (forall a, In a ex_ins -> well_oriented a) /\
  exists n, trie_insert_all true ex_ctx Forward node_empty ex_ins = TOk n /\ shuffle n n /\
    map (fun t => (r_output t, r_weight t)) (find_translations ex_lower n (lit "Foo") None)
      = [([2%N], 3); ([3%N], 3); ([1%N], 5)].
Proof.
  split.
  - intros a [<-|[<-|[<-|[]]]]; split; intros; discriminate.
  - eexists. split; [vm_compute; reflexivity|]. split; [apply shuffle_refl|vm_compute; reflexivity].
Qed.
