(** Where the signs of the indicators are put. *)
From Coq Require Import Permutation Sorted.
From Verif Require Import Base BaseProofs RuleModel TranslationModel TableModel TrieModel HyphenationModel
  HyphenationProofs TrieProofs PropTrie LoopModel CompileModel ConstraintModel ConstraintSpec ConstraintProofs IndicatorModel.

(** ** The stable sort by position *)
Lemma insert_pos_perm {A} (x : nat * A) l : Permutation (insert_pos x l) (x :: l).
Proof.
  induction l as [|y r IH]; [reflexivity|]. cbn [insert_pos]. destruct (Nat.leb (fst x) (fst y)); [reflexivity|].
  rewrite IH. apply perm_swap.
Qed.
Lemma sort_pos_perm {A} (l : list (nat * A)) : Permutation (sort_pos l) l.
Proof.
  induction l as [|x l IH]; [reflexivity|]. cbn [sort_pos fold_right]. rewrite insert_pos_perm. constructor. exact IH.
Qed.
Lemma sort_pos_In {A} (l : list (nat * A)) x : In x (sort_pos l) <-> In x l.
Proof. split; apply Permutation_in; [apply sort_pos_perm|apply Permutation_sym, sort_pos_perm]. Qed.
Definition pos_le {A} (x y : nat * A) : Prop := fst x <= fst y.
Lemma insert_pos_sorted {A} (x : nat * A) l : StronglySorted pos_le l -> StronglySorted pos_le (insert_pos x l).
Proof.
  induction 1 as [|y r H IH F]; cbn [insert_pos]; [constructor; constructor|].
  destruct (Nat.leb_spec (fst x) (fst y)) as [L|L].
  - constructor; [constructor; assumption|]. constructor; [exact L|]. eapply Forall_impl; [|exact F]. unfold pos_le. intros z Hz. lia.
  - constructor; [exact IH|]. eapply Permutation_Forall; [apply Permutation_sym, insert_pos_perm|]. constructor; [unfold pos_le; lia|exact F].
Qed.
Lemma sort_pos_sorted {A} (l : list (nat * A)) : StronglySorted pos_le (sort_pos l).
Proof. induction l as [|x l IH]; [constructor|]. apply insert_pos_sorted, IH. Qed.
(** it keeps the order of the signs of one position *)
Definition here {A} (p : nat) (l : list (nat * A)) : list (nat * A) := filter (fun x => Nat.eqb (fst x) p) l.
Lemma insert_pos_here {A} (x : nat * A) l p : here p (insert_pos x l) = here p (x :: l).
Proof.
  unfold here. induction l as [|y r IH]; [reflexivity|]. cbn [insert_pos]. destruct (Nat.leb_spec (fst x) (fst y)) as [L|L]; [reflexivity|].
  cbn [filter] in *. rewrite IH. destruct (Nat.eqb_spec (fst x) p), (Nat.eqb_spec (fst y) p); try reflexivity. lia.
Qed.
Lemma sort_pos_here {A} (l : list (nat * A)) p : here p (sort_pos l) = here p l.
Proof.
  induction l as [|x l IH]; [reflexivity|]. cbn [sort_pos fold_right]. rewrite insert_pos_here. cbn [here filter].
  change (filter (fun x => Nat.eqb (fst x) p) (sort_pos l)) with (here p (sort_pos l)). 
  change (fold_right insert_pos [] l) with (sort_pos l).
  change (filter (fun x0 : nat * A => fst x0 =? p) (sort_pos l)) with (here p (sort_pos l)). rewrite IH. reflexivity.
Qed.

(** ** Numbers *)
Section Numeric.
Variable u : numeric_ind.
Notation k := (ni_chars u).
Definition number_signs (inn : bool) (chars : str) (p : nat) (t : resolved) : Prop :=
  (t = ni_start u /\ at_in chars p (nu_digits k) /\ (match p with 0 => inn = false | S q => ~ numbered k inn chars q end)) \/
  (ni_end u = Some t /\ at_in chars p (ni_stop u) /\ ~ numbered k inn chars p /\
   (match p with 0 => inn = true | S q => numbered k inn chars q end)).
Lemma numbered_0 inn c r : numbered k inn (c :: r) 0 <-> numeric_step k inn c r = true.
Proof. symmetry. apply numeric_step_spec. Qed.
Lemma number_signs_S inn c r p t :
  number_signs inn (c :: r) (S p) t <-> number_signs (numeric_step k inn c r) r p t.
Proof.
  unfold number_signs. rewrite !at_in_cons.
  assert (N : forall q, numbered k inn (c :: r) (S q) <-> numbered k (numeric_step k inn c r) r q).
  { intros q. rewrite numbered_S, <- numeric_step_spec. unfold numbered at 2. rewrite numbered_false. tauto. }
  rewrite N. destruct p as [|p].
  - rewrite numbered_0. destruct (numeric_step k inn c r); intuition congruence.
  - rewrite N. reflexivity.
Qed.
Lemma numeric_loop_step inn pos c r : numeric_loop u inn pos (c :: r) =
  (if mem c (nu_digits k) then if inn then [] else [(pos, ni_start u)]
   else if numeric_step k inn c r then []
   else if (inn && mem c (ni_stop u))%bool then match ni_end u with Some t => [(pos, t)] | None => [] end else [])
  ++ numeric_loop u (numeric_step k inn c r) (S pos) r.
Proof.
  unfold numeric_step. cbn [numeric_loop]. destruct (mem c (nu_digits k)); [reflexivity|]. cbn [orb].
  destruct (inn && mem c (nu_extra k))%bool; [reflexivity|]. cbn [orb].
  destruct (inn && is_empty (nu_extra k) && mem c (nu_mid k) && _)%bool; reflexivity.
Qed.
Lemma numeric_loop_spec chars : forall inn pos p t,
  In (p, t) (numeric_loop u inn pos chars) <-> exists q, p = pos + q /\ number_signs inn chars q t.
Proof.
  induction chars as [|c r IH]; intros inn pos p t.
  - split; [intros []|]. intros (q & _ & [(_ & H & _)|(_ & H & _)]); destruct (at_in_nil _ _ H).
  - rewrite numeric_loop_step, in_app_iff, IH.
    assert (HD : In (p, t) (if mem c (nu_digits k) then if inn then [] else [(pos, ni_start u)]
       else if numeric_step k inn c r then []
       else if (inn && mem c (ni_stop u))%bool then match ni_end u with Some t => [(pos, t)] | None => [] end else []) <->
       p = pos /\ number_signs inn (c :: r) 0 t).
    { unfold number_signs. rewrite !at_in_0, numbered_0. unfold numeric_step.
      destruct (mem c (nu_digits k)) eqn:ED; cbn [orb].
      - apply mem_In in ED. destruct inn; cbn [In].
        + split; [intros []|]. intros (_ & [(_ & _ & [=])|(_ & _ & H & _)]). destruct H. reflexivity.
        + split; [intros [[= <- <-]|[]]; auto|]. intros (-> & [(-> & _)|(_ & _ & _ & [=])]). auto.
      - apply mem_nIn in ED. match goal with |- context [if ?b then [] else _] => destruct b end.
        + split; [intros []|]. intros (_ & [(_ & H & _)|(_ & _ & H & _)]); [contradiction|destruct H; reflexivity].
        + destruct inn; cbn [andb].
          * destruct (mem c (ni_stop u)) eqn:ES.
            -- apply mem_In in ES. destruct (ni_end u) as [e|]; cbn [In].
               ++ split; [intros [[= <- <-]|[]]; split; [reflexivity|]; right; repeat split; auto; discriminate|].
                  intros (-> & [(_ & H & _)|([= ->] & _)]); [contradiction|auto].
               ++ split; [intros []|]. intros (_ & [(_ & H & _)|([=] & _)]). contradiction.
            -- apply mem_nIn in ES. split; [intros []|]. intros (_ & [(_ & H & _)|(_ & H & _)]); contradiction.
          * split; [intros []|]. intros (_ & [(_ & H & _)|(_ & _ & _ & [=])]). contradiction. }
    rewrite HD. split.
    + intros [[-> H]|(q & -> & H)]; [exists 0; split; [lia|exact H]|]. exists (S q). split; [lia|]. apply number_signs_S, H.
    + intros ([|q] & -> & H); [left; split; [lia|exact H]|]. right. exists q. split; [lia|]. apply number_signs_S, H.
Qed.
Lemma numeric_loop_sorted chars : forall inn pos,
  StronglySorted (fun x y => fst x < fst y) (numeric_loop u inn pos chars) /\ Forall (fun x => pos <= fst x < pos + length chars) (numeric_loop u inn pos chars).
Proof.
  induction chars as [|c r IH]; intros inn pos; [split; constructor|]. rewrite numeric_loop_step.
  destruct (IH (numeric_step k inn c r) (S pos)) as [H1 H2].
  assert (H3 : Forall (fun x => pos <= fst x < pos + length (c :: r)) (numeric_loop u (numeric_step k inn c r) (S pos) r)).
  { eapply Forall_impl; [|exact H2]. cbn [length]. intros x Hx. lia. }
  assert (ONE : forall t, StronglySorted (fun x y => fst x < fst y) ([(pos, t)] ++ numeric_loop u (numeric_step k inn c r) (S pos) r) /\
     Forall (fun x => pos <= fst x < pos + length (c :: r)) ([(pos, t)] ++ numeric_loop u (numeric_step k inn c r) (S pos) r)).
  { intros t. split; [constructor; [exact H1|eapply Forall_impl; [|exact H2]; cbn [fst]; intros x Hx; lia]|].
    constructor; [cbn [fst length]; lia|exact H3]. }
  assert (NONE : StronglySorted (fun x y => fst x < fst y) ([] ++ numeric_loop u (numeric_step k inn c r) (S pos) r) /\
     Forall (fun x => pos <= fst x < pos + length (c :: r)) ([] ++ numeric_loop u (numeric_step k inn c r) (S pos) r)) by (split; assumption).
  destruct (mem c (nu_digits k)); [destruct inn; auto|]. destruct (numeric_step k inn c r); [auto|].
  destruct (inn && mem c (ni_stop u))%bool; [destruct (ni_end u)|]; auto.
Qed.
Lemma numeric_signs_spec chars p t : In (p, t) (numeric_precompute u chars) <->
  (t = ni_start u /\ number_starts k chars p) \/
  (ni_end u = Some t /\ number_ended k chars p /\ at_in chars p (ni_stop u)).
Proof.
  unfold numeric_precompute. rewrite numeric_loop_spec.
  assert (E : (exists q, p = 0 + q /\ number_signs false chars q t) <-> number_signs false chars p t)
    by (split; [intros (q & -> & H); exact H|intros H; exists p; auto]).
  rewrite E. unfold number_signs, number_starts, number_ended. rewrite numbered_false. destruct p as [|p].
  - split; [intros [(A & B & _)|(_ & _ & _ & [=])]; auto|]. intros [(A & B & _)|(_ & (A & _) & _)]; [auto|lia].
  - rewrite numbered_false. replace (S p - 1) with p by lia. split.
    + intros [(A & B & D)|(A & B & D & F)]; [auto|]. right. split; [exact A|]. split; [|exact B].
      split; [lia|]. split; [exact F|]. split; [exact D|]. eapply at_in_lt, B.
    + intros [(A & B & [[=]|D])|(A & (_ & D & F & _) & B)]; auto.
Qed.
End Numeric.

(** ** Computer braille *)
Definition comp_span (chars : str) (s : span) (a e : nat) : Prop :=
  sp_class s = computer_braille /\ a = sp_start s /\ e = Nat.min (sp_end s) (length chars) /\ a < e.
Lemma comp_precompute_spec u chars spans p t : In (p, t) (comp_precompute u chars spans) <->
  exists s a e, In s spans /\ comp_span chars s a e /\ ((p = a /\ t = ci_beg u) \/ (p = e /\ ci_end u = Some t)).
Proof.
  unfold comp_precompute, comp_span. rewrite sort_pos_In, in_flat_map. split.
  - intros (s & Hs & H). destruct (str_eqb (sp_class s) computer_braille) eqn:E; [|destruct H]. apply str_eqb_eq' in E.
    destruct (Nat.leb_spec (Nat.min (sp_end s) (length chars)) (sp_start s)) as [L|L]; [destruct H|].
    exists s, (sp_start s), (Nat.min (sp_end s) (length chars)). split; [exact Hs|]. split; [auto|].
    destruct H as [[= <- <-]|H]; [auto|]. destruct (ci_end u); [|destruct H]. destruct H as [[= <- <-]|[]]. auto.
  - intros (s & a & e & Hs & (E & -> & -> & L) & H). exists s. split; [exact Hs|]. rewrite (proj2 (str_eqb_eq' _ _) E).
    destruct (Nat.leb_spec (Nat.min (sp_end s) (length chars)) (sp_start s)) as [L'|L']; [lia|].
    destruct H as [[-> ->]|[-> H]]; [left; reflexivity|]. right. rewrite H. left. reflexivity.
Qed.

(** ** Contractions *)
(** a contraction stands at [pos] as a word of its own: it matches the text there in lower
    case and both neighbours are spaces or punctuation (or the ends of the text) *)
Definition contraction_word (lower : char -> list char) (ctx : classes) (contractions : list str) (chars : str) (pos : nat) : Prop :=
  exists c txt rest, In c contractions /\ skipn pos chars = txt ++ rest /\ map lower txt = map (fun x => [x]) c /\
    neighbour_in ctx SP (char_before chars pos) /\ neighbour_in ctx SP (hd_error rest).
Section Contractions.
Variable lower : char -> list char.
Variable compat : bool.
Variable x : context.
Variable rules : list rule.
Variable order : list str -> list str.
Hypothesis ORD : forall l, Permutation (order l) l.
Variable dots : str.
Variable r : rule.
Variable n n' : node.
Hypothesis TR : contraction_trie compat x rules order dots r = TOk n.
Hypothesis SH : shuffle n n'.
Notation entries := (map (contraction_args dots r) (order (contractions rules))).
Lemma contractions_In c : In c (contractions rules) <-> In (RContraction c) rules.
Proof.
  unfold contractions. rewrite nodup_In, in_flat_map. split.
  - intros (q & Hq & H). destruct q; try destruct H; [|contradiction..]. subst. exact Hq.
  - intros H. exists (RContraction c). split; [exact H|left; reflexivity].
Qed.
Lemma entry_in_force c : In c (contractions rules) -> exists full,
  in_force compat (x_chars x) Forward entries full (contraction_args dots r c).
Proof.
  intros Hc. assert (ND : NoDup (order (contractions rules))).
  { eapply Permutation_NoDup; [apply Permutation_sym, ORD|]. apply NoDup_nodup. }
  apply (Permutation_in c (Permutation_sym (ORD _))) in Hc. destruct (in_split _ _ Hc) as (l1 & l2 & E). rewrite E in *.
  apply NoDup_remove_2 in ND. rewrite map_app. cbn [map].
  assert (NR : forall c', In c' (l1 ++ l2) -> ~ rivals (x_chars x) Forward (contraction_args dots r c) (contraction_args dots r c')).
  { intros c' H (X & _). apply ND. cbn in X. subst c'. exact H. }
  destruct compat.
  - exists true. apply C16_first_wins_among_default.
    + intros b Hb. apply in_map_iff in Hb. destruct Hb as (c' & <- & Hc'). apply NR, in_or_app. auto.
    + intros b Hb _. apply in_map_iff in Hb. destruct Hb as (c' & <- & _). reflexivity.
  - apply C16_last_wins_without_compat. intros b Hb. apply in_map_iff in Hb. destruct Hb as (c' & <- & Hc'). apply NR, in_or_app. auto.
Qed.
Lemma contraction_found chars pos : is_empty (find_translations lower n' (skipn pos chars) (char_before chars pos)) = false <->
  contraction_word lower (x_chars x) (contractions rules) chars pos.
Proof.
  assert (W : forall a, In a entries -> well_oriented a).
  { intros a Ha. apply in_map_iff in Ha. destruct Ha as (c & <- & _). split; intros ks H; discriminate. }
  pose proof (C15_lookup_exact lower compat (x_chars x) Forward entries n n' (skipn pos chars) (char_before chars pos)) as L.
  assert (Q : is_empty (find_translations lower n' (skipn pos chars) (char_before chars pos)) = false <->
    exists t, In t (find_translations lower n' (skipn pos chars) (char_before chars pos))).
  { destruct (find_translations lower n' (skipn pos chars) (char_before chars pos)) as [|t l]; cbn [is_empty].
    - split; [discriminate|intros (t & [])].
    - split; [intros _; exists t; left; reflexivity|reflexivity]. }
  rewrite Q. split.
  - intros (t & Ht). apply (L t W TR SH) in Ht. destruct Ht as (full & a & F & A & _).
    destruct F as (l1 & l2 & E & _). assert (Ha : In a entries) by (rewrite E; apply in_or_app; right; left; reflexivity).
    apply in_map_iff in Ha. destruct Ha as (c & <- & Hc).
    destruct (C15_text_condition _ _ _ _ _ _ A) as (txt & rest & E1 & E2 & E3 & E4).
    exists c, txt, rest. split; [eapply Permutation_in; [apply ORD|exact Hc]|]. split; [exact E1|]. split; [exact E2|]. split.
    + apply E3. left. reflexivity.
    + apply E4. left. reflexivity.
  - intros (c & txt & rest & Hc & E1 & E2 & N1 & N2). destruct (entry_in_force c Hc) as (full & F).
    eexists. apply (L _ W TR SH). exists full, (contraction_args dots r c). split; [exact F|]. split; [|reflexivity].
    exists rest. cbn. split; [|split; intros ks [<-|[]]; assumption]. rewrite E1. clear - E2.
    revert c E2. induction txt as [|y txt IH]; intros [|z c] E; try discriminate; [constructor|].
    cbn [map] in E. injection E as E1 E. cbn [app]. constructor; [exact E1|apply IH, E].
Qed.
End Contractions.
Lemma contraction_positions_spec lower trie chars : forall s pos, skipn pos chars = s -> pos <= length chars -> forall p,
  In p (contraction_positions lower trie (char_before chars pos) pos s) <->
  pos <= p < length chars /\ is_empty (find_translations lower trie (skipn p chars) (char_before chars p)) = false.
Proof.
  induction s as [|c r IH]; intros pos ES L p; cbn [contraction_positions].
  - apply (f_equal (@length _)) in ES. rewrite skipn_length in ES. cbn [length] in ES. split; [intros []|]. unfold char in *. lia.
  - assert (EN : nth_error chars pos = Some c).
    { rewrite <- (firstn_skipn pos chars), nth_error_app2 by (rewrite firstn_length; lia).
      rewrite ES, firstn_length. replace (pos - Nat.min pos (length chars)) with 0 by lia. reflexivity. }
    assert (EL : pos < length chars) by (apply nth_error_Some; congruence).
    assert (ES' : skipn (S pos) chars = r) by (pose proof (skipn_app_add chars [c] r pos ES) as X; cbn [length] in X; rewrite Nat.add_1_r in X; exact X).
    rewrite in_app_iff. replace (Some c) with (char_before chars (S pos)) by exact EN. rewrite (IH (S pos) ES' EL). rewrite <- ES at 1.
    destruct (is_empty (find_translations lower trie (skipn pos chars) (char_before chars pos))) eqn:E; cbn [In].
    + split; [intros [[]|[A B]]; split; [lia|exact B]|]. intros [A B]. right. split; [|exact B].
      destruct (Nat.eq_dec p pos) as [->|]; [congruence|lia].
    + split; [intros [[<-|[]]|[A B]]; (split; [lia|assumption])|]. intros [A B].
      destruct (Nat.eq_dec p pos) as [->|]; [auto|]. right. split; [lia|exact B].
Qed.
Lemma nocont_spec lower u chars p t : In (p, t) (nocont_precompute lower u chars) <->
  t = no_sign u /\ p < length chars /\ is_empty (find_translations lower (no_trie u) (skipn p chars) (char_before chars p)) = false.
Proof.
  unfold nocont_precompute. rewrite in_map_iff. pose proof (contraction_positions_spec lower (no_trie u) chars chars 0 eq_refl (Nat.le_0_l _)) as H.
  cbn [char_before] in H. split.
  - intros (q & [= <- <-] & Hq). apply H in Hq. split; [reflexivity|]. split; [lia|apply Hq].
  - intros (-> & A & B). exists p. split; [reflexivity|]. apply H. split; [lia|exact B].
Qed.
(** a letter on its own, as the letsign opcodes describe it *)
Definition isolated_letter (u : letter_ind) (chars : str) (p : nat) : Prop :=
  at_in chars p (li_letters u) /\ ~ at_in chars p (li_never u) /\
  ~ before_in chars p (li_after u) /\ ~ at_in chars (S p) (li_before u) /\
  ~ at_in chars (S p) (li_letters u) /\ ~ before_in chars p (li_spaces u) /\ ~ before_in chars p (li_letters u).
Lemma has_before chars p l : has l (char_before chars p) = true <-> before_in chars p l.
Proof.
  pose proof (char_before_spec chars p l) as H. unfold not_in, has in *. destruct (char_before chars p) as [c|] eqn:E.
  - unfold before_in, char_before in *. destruct p as [|q]; [discriminate|]. rewrite mem_In. split.
    + intros M. exists q. split; [reflexivity|]. exists c. auto.
    + intros (q' & [= <-] & c' & E' & M). rewrite E in E'. injection E' as <-. exact M.
  - split; [discriminate|]. intros B. destruct (proj1 H eq_refl B).
Qed.
Lemma has_at chars p l : has l (nth_error chars p) = true <-> at_in chars p l.
Proof.
  unfold has, at_in. destruct (nth_error chars p) as [c|] eqn:E.
  - rewrite mem_In. split; [intros H; exists c; auto|]. intros (c' & E' & H). pose proof (eq_trans (eq_sym E) E') as X. injection X as ->. exact H.
  - split; [discriminate|]. intros (c' & E' & H). pose proof (eq_trans (eq_sym E) E'). discriminate.
Qed.
Lemma at_in_is chars p c l : nth_error chars p = Some c -> (at_in chars p l <-> In c l).
Proof.
  intros E. split; [|intros H; exists c; auto]. intros (c' & E' & H). pose proof (eq_trans (eq_sym E) E') as X. injection X as ->. exact H.
Qed.
Lemma false_not (b : bool) P : (b = true <-> P) -> (b = false <-> ~ P).
Proof. destruct b; intuition congruence. Qed.
Lemma isolated_spec u chars p : isolated_at u chars p = true <-> isolated_letter u chars p.
Proof.
  unfold isolated_at, isolated_letter. destruct (nth_error chars p) as [c|] eqn:E.
  - rewrite !andb_true_iff, !negb_true_iff, orb_false_iff.
    rewrite !(at_in_is _ _ _ _ E). rewrite (mem_In c (li_letters u)), (mem_nIn c (li_never u)).
    rewrite (false_not _ _ (has_before chars p (li_after u))), (false_not _ _ (has_before chars p (li_spaces u))),
      (false_not _ _ (has_before chars p (li_letters u))), (false_not _ _ (has_at chars (S p) (li_before u))),
      (false_not _ _ (has_at chars (S p) (li_letters u))). tauto.
  - split; [discriminate|]. intros ((c & E' & _) & _). pose proof (eq_trans (eq_sym E) E'). discriminate.
Qed.
Lemma letter_spec lower u chars p t : In (p, t) (letter_precompute lower u chars) <->
  t = li_sign u /\ (isolated_letter u chars p \/
    p < length chars /\ ~ at_in chars p (li_never u) /\
    is_empty (find_translations lower (li_trie u) (skipn p chars) (char_before chars p)) = false).
Proof.
  assert (C : contraction_at lower u chars p = true <-> p < length chars /\ ~ at_in chars p (li_never u) /\
    is_empty (find_translations lower (li_trie u) (skipn p chars) (char_before chars p)) = false).
  { unfold contraction_at. destruct (nth_error chars p) as [c|] eqn:E.
    - rewrite andb_true_iff, !negb_true_iff, (at_in_is _ _ _ _ E), mem_nIn.
      assert (p < length chars) by (apply nth_error_Some; congruence). tauto.
    - apply nth_error_None in E. split; [discriminate|lia]. }
  unfold letter_precompute. rewrite in_map_iff. split.
  - intros (q & [= <- <-] & Hq). apply filter_In in Hq. destruct Hq as [_ Hq]. apply orb_true_iff in Hq.
    rewrite isolated_spec, C in Hq. auto.
  - intros (-> & H). exists p. split; [reflexivity|]. apply filter_In. rewrite in_seq, orb_true_iff, isolated_spec, C.
    split; [|exact H]. destruct H as [(H & _)|(H & _)]; [apply at_in_lt in H|]; unfold char in *; lia.
Qed.
