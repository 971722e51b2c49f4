(** Where pieces made by rules with a text come from. *)
From Coq Require Import Permutation.
From Verif Require Import Base BaseProofs RuleModel ClassSpec TranslationModel TranslationProofs TableModel RegexpModel
  RegexpSpec PatternModel MatchProofs TrieModel TrieProofs PropTrie
  HyphenationModel HyphenationProofs LoopModel LoopProofs MultipassProofs PrimaryProofs PrimaryTrace CompileModel CompileSpec
  CompileProofs MainTable ConstraintModel ConstraintSpec ConstraintProofs IndicatorModel IndicatorProofs
  CapsSpec CapsProofs CapsFacts EmphSpec EmphProofs MainSpec StepProofs TraceSpec MainPass StepFacts TraceProofs PropMain WordSpec.

Lemma rivals_sym ctx d a b : rivals ctx d a b -> rivals ctx d b a.
Proof.
  assert (S : forall l l', Forall2 (same_condition ctx) l l' -> Forall2 (same_condition ctx) l' l).
  { induction 1; constructor; auto. intros c. symmetry. apply H. }
  intros (H1 & H2 & H3). split; [auto|]. split; auto.
Qed.
(** of rivals, only one is in force *)
Lemma in_force_unique compat ctx d l f a g b :
  in_force compat ctx d l f a -> in_force compat ctx d l g b -> rivals ctx d a b -> a = b.
Proof.
  intros (l1 & l2 & E & H & _) (m1 & m2 & E' & H' & _) R. rewrite E in E'. apply app_eq_cases in E'.
  destruct E' as [(e & -> & X)|(e & -> & X)]; (destruct e as [|e0 e]; injection X as -> X; [reflexivity|exfalso]); subst.
  - assert (I1 : In b (e ++ b :: m2)) by (apply in_elt). assert (I2 : In e0 (l1 ++ e0 :: e)) by apply in_elt.
    destruct compat.
    + destruct H as [H _], H' as [_ [H'|H']]; [apply (H' e0 I2), rivals_sym, R|apply (H b I1 R H')].
    + apply (H b I1 R).
  - assert (I1 : In a (e ++ a :: l2)) by (apply in_elt). assert (I2 : In e0 (m1 ++ e0 :: e)) by apply in_elt.
    destruct compat.
    + destruct H' as [H' _], H as [_ [H|H]]; [apply (H e0 I2), R|apply (H' a I1 (rivals_sym _ _ _ _ R) H)].
    + apply (H' a I1 (rivals_sym _ _ _ _ R)).
Qed.

(** of the rivals of an entry one is in force *)
Lemma some_in_force compat ctx d l a : (forall b, In b l -> well_oriented b) -> In a l ->
  exists full b, in_force compat ctx d l full b /\ In b l /\ rivals ctx d a b.
Proof.
  intros W I. destruct (fold_chosen compat ctx d (filter (same_path ctx d (ins_path ctx d a)) l)) as (full & b & C & _).
  { assert (X : In a (filter (same_path ctx d (ins_path ctx d a)) l)) by (apply filter_In; split; [exact I|apply same_path_true; reflexivity]).
    intros E. rewrite E in X. destruct X. }
  assert (Ib : In b (filter (same_path ctx d (ins_path ctx d a)) l)) by (destruct C as (l1 & l2 & E & _); rewrite E; apply in_elt).
  apply filter_In in Ib. destruct Ib as [Ib P]. apply same_path_true in P. exists full, b.
  split; [apply chosen_in_force; [exact W|]; rewrite P; exact C|]. split; [exact Ib|]. apply same_path_rivals; auto.
Qed.
Section Words.
Variable is_alphabetic : char -> bool.
Variable compat : bool.
Variable read_dictionary : str -> tres hyph.
Variable x : context.
Variable rules : list rule.
Variable lower upper : char -> list char.
Variable sort : list event -> res (list event).
Variable m : main_table.
Hypothesis B : main_built is_alphabetic compat read_dictionary Forward x rules m.
Hypothesis DR : dictionaries_read read_dictionary.
Hypothesis SR : sort_rearranges sort.
Notation trace := (main_trace lower upper sort m).
Notation src := (rule_sources compat Forward x rules lower).

Lemma word_entry_origin r e : In e (word_entries x r) -> i_origin e = Some r.
Proof.
  unfold word_entries. destruct r; cbn [word_insertions]; try (intros []; fail);
    try (destruct (dots_of x _ _) as [t| |]; cbn [tbind]; try (intros []; fail)); cbn [In];
    try (destruct (forallb _ _); cbn [In]; try (intros []; fail));
    intros H; repeat (destruct H as [<-|H]; [reflexivity|]); destruct H.
Qed.
Lemma main_entry r e : In e (main_entries Forward x rules) -> i_origin e = Some r ->
  In r rules /\ is_nocross r = false /\ In e (word_entries x r).
Proof.
  unfold main_entries. rewrite in_app_iff, !in_flat_map. intros [(r' & _ & H)|(r' & Hr & H)]; [destruct H|].
  unfold main_entries_of in H. cbn [backward_only is_backward app] in H. rewrite in_app_iff in H. destruct H as [H|H].
  { destruct r'; cbn in H; destruct H. }
  destruct (is_nocross r') eqn:N; [destruct H|]. rewrite (word_entry_origin _ _ H). intros [= <-]. auto.
Qed.
Lemma nocross_entry r e : In e (nocross_entries x rules) -> i_origin e = Some r ->
  In r rules /\ is_nocross r = true /\ In e (word_entries x r).
Proof.
  unfold nocross_entries. rewrite in_flat_map. intros (r' & Hr & H).
  destruct (is_nocross r') eqn:N; [|destruct H]. rewrite (word_entry_origin _ _ H). intros [= <-]. auto.
Qed.
Definition entries_for (r : rule) : list ins_args := if is_nocross r then nocross_entries x rules else main_entries Forward x rules.
(** the character before a position, as the rules see it: up to its case *)
Definition seen_before (input : str) (p : nat) (o : option char) : Prop :=
  match p with
  | 0 => o = None
  | S q => exists c c', nth_error input q = Some c /\ o = Some c' /\ (c' = c \/ lower c = [c'])
  end.
Lemma last_char_app (l : str) c : last_char (l ++ [c]) = Some c.
Proof. induction l as [|y l IH]; [reflexivity|]. cbn [app last_char]. destruct (l ++ [c]) eqn:E; [destruct l; discriminate|exact IH]. Qed.
Lemma seen_last input spans out a t b : trace input spans = Ok out -> out = a ++ t :: b ->
  seen_before input (position a) (last_char (flat_map r_input (text_pieces a))).
Proof.
  intros E ->. destruct (C01_pieces_cover_the_input _ _ _ _ _ _ lower upper sort m B DR SR input spans _ E) as (segs & Es & F).
  apply Forall2_app_inv_r in F. destruct F as (s1 & s2 & F & _ & ->). rewrite concat_app in Es.
  assert (TP : flat_map r_input (text_pieces a) = flat_map r_input a).
  { clear - F. induction F as [|s u l l' (H1 & H2) F IH]; [reflexivity|]. unfold text_pieces in *. cbn [filter flat_map].
    destruct (is_sign u) eqn:K; cbn [negb flat_map]; rewrite IH; [|reflexivity].
    unfold is_sign in K. apply andb_true_iff in K. destruct K as [K _]. apply Nat.eqb_eq in K. rewrite K in H1.
    destruct s; [|discriminate]. inversion H2. reflexivity. }
  rewrite TP. assert (L : Forall2 (fun c c' => c = c' \/ lower c = [c']) (concat s1) (flat_map r_input a) /\ position a = length (concat s1)).
  { clear - F. induction F as [|s u l l' (H1 & H2) F [IH1 IH2]]; [split; [constructor|reflexivity]|]. cbn [concat flat_map]. split; [apply Forall2_app; auto|].
    unfold position in *. cbn [map list_sum fold_right]. rewrite app_length, H1. f_equal. exact IH2. }
  destruct L as [L ->]. rewrite <- Es. clear - L. revert L. generalize (flat_map r_input a) as w.
  induction (concat s1) as [|c l _] using rev_ind; intros w L; [inversion L; reflexivity|].
  apply Forall2_app_inv_l in L. destruct L as (w1 & w2 & _ & L & ->). inversion L as [|? c' ? ? P Q]; subst. inversion Q; subst.
  rewrite app_length. cbn [length]. rewrite Nat.add_1_r. exists c, c'. rewrite last_char_app. split; [|split; [reflexivity|destruct P; auto]].
  rewrite <- app_assoc, nth_error_app2 by lia. rewrite Nat.sub_diag. reflexivity.
Qed.
Lemma word_piece input spans out a t b r text : trace input spans = Ok out -> out = a ++ t :: b ->
  r_origin t = Some r -> rule_text r = Some text ->
  exists full e prev, in_force compat (x_chars x) Forward (entries_for r) full e /\ In r rules /\ In e (word_entries x r) /\
    seen_before input (position a) prev /\
    applies lower (x_chars x) Forward e (skipn (position a) input) prev /\
    t = offer (x_chars x) Forward full e.
Proof.
  intros E Eo Or RT. pose proof (seen_last _ _ _ _ _ _ E Eo) as SL.
  destruct (pass_traced _ _ _ _ _ _ lower upper sort m B DR input spans out SR E) as (sp & em & caps & ind & lim & ts & T).
  assert (NS : is_sign t = false) by (unfold is_sign; rewrite Or; destruct r; try discriminate RT; apply andb_false_r).
  destruct (piece _ _ _ _ _ _ _ _ _ _ B _ _ _ _ _ _ _ _ _ T a t b Eo) as [(X & _)|(_ & ts1 & y & ts2 & Ets & R & H & Et & W)]; [congruence|].
  destruct (step_at _ _ _ _ _ _ _ _ _ _ B _ _ _ _ _ _ _ _ _ T _ _ _ Ets) as (_ & IL & _).
  assert (PV : previous ts1 = last_char (flat_map r_input (text_pieces a))).
  { unfold previous. f_equal. rewrite <- W. clear. generalize 0 as pos. induction ts1 as [|z l IH]; intros pos; [reflexivity|].
    cbn [flat_map show_all]. rewrite <- IH. destruct (shown_fields upper Forward lim pos z) as (_ & -> & _). reflexivity. }
  pose proof (mb_rules _ _ _ _ _ _ _ B) as CM.
  assert (Q : exists u, snd y = u /\ t = u /\ r_origin u = Some r /\ rule_offers compat Forward x lower (entries_for r) (skipn (position a) input) (last_char (flat_map r_input (text_pieces a))) u).
  { destruct y as [h u]. exists u. split; [reflexivity|]. assert (ET : t = u) by (rewrite Et; destruct h; reflexivity). split; [exact ET|]. subst u. split; [exact Or|].
    rewrite <- PV, <- R. unfold entries_for. destruct h; cbn [best] in H.
    - destruct H as ((H & _) & _). cbn [by_nocross rule_sources] in H. destruct (nocross_offer compat read_dictionary Forward x rules lower _ CM _ _ _ H) as (_ & r' & _ & O' & N).
      rewrite Or in O'. injection O' as <-. rewrite N. exact H.
    - destruct H as (H & _). destruct (available_facts compat read_dictionary Forward x rules lower _ CM lim input ts1 t IL H) as (_ & r' & _ & O' & N & C6 & _).
      rewrite Or in O'. injection O' as <-. rewrite N. unfold available in H. destruct (flag_at k_comp6 lim (reached ts1)).
      { pose proof (proj2 C6 eq_refl) as XX. destruct r; discriminate. }
      destruct H as (_ & [(XX & _)|(H & _)]); [discriminate XX|]. destruct H as [H|[(H & _)|H]]; [exact H| |].
      + apply (found_facts compat Forward x rules lower) in H. destruct H as (_ & _ & r' & _ & O' & PR). rewrite Or in O'. injection O' as <-. destruct r; try discriminate RT; destruct PR; discriminate.
      + destruct H as (b0 & c0 & v & _ & F & _ & _ & _ & ET'). apply (found_facts compat Forward x rules lower) in F. destruct F as (_ & _ & r' & _ & O' & PR).
        rewrite ET' in Or. cbn [with_offset r_origin] in Or. rewrite Or in O'. injection O' as <-. destruct r; try discriminate RT; destruct PR; discriminate.
    - destruct H as ((c & rr & _ & H) & _). apply (character_facts compat read_dictionary Forward x rules _ CM) in H. destruct H as (_ & [O'|(r' & _ & O' & D)]); [congruence|].
      rewrite Or in O'. injection O' as <-. destruct r; try discriminate RT; destruct D as (dd & [D|D]); destruct D. }
  destruct Q as (u & _ & <- & Ou & (full & e & IF & AP & OF)). exists full, e, (last_char (flat_map r_input (text_pieces a))).
  assert (OE : i_origin e = Some r) by (rewrite OF in Ou; exact Ou).
  assert (IE : In e (entries_for r)) by (destruct IF as (l1 & l2 & El & _); rewrite El; apply in_elt).
  split; [exact IF|]. unfold entries_for in IE.
  assert (W2 : In r rules /\ In e (word_entries x r)).
  { destruct (is_nocross r); [destruct (nocross_entry _ _ IE OE)|destruct (main_entry _ _ IE OE)]; tauto. }
  split; [apply W2|]. split; [apply W2|]. split; [exact SL|]. split; [exact AP|]. exact OF.
Qed.

(** ** The entries of a rule *)
Lemma compiled_words p r text : compiled compat read_dictionary Forward x rules p -> In r rules -> rule_text r = Some text ->
  exists l, word_insertions x r = TOk l.
Proof.
  intros (p0 & E & _) I RT. unfold primary_compile in E.
  destruct (compile_fold (compile_step1 compat Forward x) builder_new rules) as [b1| |]; try discriminate E. cbn [tbind] in E.
  assert (G : forall l b b', compile_fold (compile_step2 compat read_dictionary Forward x rules) b l = TOk b' -> In r l -> exists l, word_insertions x r = TOk l).
  { induction l as [|q l IH]; intros b b' F J; [destruct J|]. cbn [compile_fold] in F.
    destruct (compile_step2 compat read_dictionary Forward x rules b q) as [b2| |] eqn:S2; try discriminate F. cbn [tbind] in F.
    destruct J as [->|J]; [|eapply IH; eauto].
    destruct r; try discriminate RT; cbn [compile_step2] in S2; (destruct (word_insertions x _) as [ll| |]; [eauto|discriminate S2|discriminate S2]). }
  destruct (compile_fold (compile_step2 compat read_dictionary Forward x rules) b1 rules) as [b2| |] eqn:F; try discriminate E. eapply G; eauto.
Qed.
(** the neighbours an opcode and its class conditions demand are those of an entry *)
Lemma place_entry r text l before behind : rule_text r = Some text -> word_insertions x r = TOk l ->
  (match r with RPrepunc t _ _ | RPostpunc t _ _ => forallb (cls_has (x_chars x) CPunctuation) t = true | _ => True end) ->
  opcode_place x r before behind -> classes_around x r before behind ->
  exists e, In e (word_entries x r) /\ i_from e = text /\
    (forall ks, In ks (pre_conditions e) -> neighbour_in (x_chars x) ks before) /\
    (forall ks, In ks (post_conditions e) -> neighbour_in (x_chars x) ks behind).
Proof.
  intros RT WI PU OP CA. unfold word_entries. rewrite WI.
  assert (NB : forall name o, neighbour x name o -> neighbour_in (x_chars x) [class_from name] o).
  { intros name o [(c & -> & H)|(-> & E)]; rewrite class_from_called; [exists (class_called name); split; [left; reflexivity|exact H]|rewrite E; left; reflexivity]. }
  assert (KN : forall name u, cls_get (x_chars x) (class_from name) = Some u -> known x name) by (intros name u H; unfold known; rewrite <- class_from_called; congruence).
  assert (C1 : forall k, In (KStart k) (class_constraints x (with_classes r)) -> neighbour_in (x_chars x) [k] before).
  { intros k J. unfold class_constraints in J. apply in_flat_map in J. destruct J as (w & Iw & J). specialize (CA w Iw).
    destruct w as [n|n]; destruct (cls_get (x_chars x) (class_from n)) eqn:G; cbn in J; intuition try discriminate.
    match goal with H : KStart _ = KStart _ |- _ => injection H as <- end. eauto. }
  assert (C2 : forall k, In (KEnd k) (class_constraints x (with_classes r)) -> neighbour_in (x_chars x) [k] behind).
  { intros k J. unfold class_constraints in J. apply in_flat_map in J. destruct J as (w & Iw & J). specialize (CA w Iw).
    destruct w as [n|n]; destruct (cls_get (x_chars x) (class_from n)) eqn:G; cbn in J; intuition try discriminate.
    match goal with H : KEnd _ = KEnd _ |- _ => injection H as <- end. eauto. }
  assert (E1 : forall o, edge x o -> neighbour_in (x_chars x) [CSpace; CPunctuation] o).
  { intros o [->|[(c & -> & H)|(c & -> & H)]]; [left; reflexivity|exists CSpace; cbn; auto|exists CPunctuation; cbn; auto]. }
  assert (E2 : forall k o, of_class x k o -> neighbour_in (x_chars x) [k] o) by (intros k o (c & -> & H); exists k; cbn; auto).
  assert (E3 : forall o, a_letter_at x o \/ edge x o -> neighbour_in (x_chars x) [CLetter; CSpace; CPunctuation] o).
  { intros o [(c & -> & H)|[->|[(c & -> & H)|(c & -> & H)]]]; [exists CLetter|right; left; reflexivity|exists CSpace|exists CPunctuation]; cbn; auto. }
  assert (Z : forall e, In e l -> i_from e = text -> i_constraints e = class_constraints x (with_classes r) ->
    (forall ks, In ks (match i_before e with Some (TrStart ks) => [ks] | _ => [] end) -> neighbour_in (x_chars x) ks before) ->
    (forall ks, In ks (match i_after e with Some (TrEnd ks) => [ks] | _ => [] end) -> neighbour_in (x_chars x) ks behind) ->
    exists e, In e l /\ i_from e = text /\
    (forall ks, In ks (pre_conditions e) -> neighbour_in (x_chars x) ks before) /\
    (forall ks, In ks (post_conditions e) -> neighbour_in (x_chars x) ks behind)).
  { intros e Ie Fe Ke He1 He2. exists e. split; [exact Ie|]. split; [exact Fe|]. split; intros ks J.
    - unfold pre_conditions in J. apply in_app_iff in J. destruct J as [J|J].
      + apply in_flat_map in J. destruct J as (kc & Ik & J). rewrite Ke in Ik. destruct kc; cbn in J; try (destruct J; fail); destruct J as [<-|[]]; auto.
      + apply He1. destruct (i_before e) as [[|]|]; cbn in J |- *; rewrite ?app_nil_r in J; try exact J; destruct J.
    - unfold post_conditions in J. apply in_app_iff in J. destruct J as [J|J].
      + apply He2. destruct (i_after e) as [[|]|]; cbn in J |- *; rewrite ?app_nil_r in J; try exact J; destruct J.
      + apply in_flat_map in J. destruct J as (kc & Ik & J). rewrite Ke in Ik. destruct kc; cbn in J; try (destruct J; fail); destruct J as [<-|[]]; auto. }
  destruct r; try discriminate RT; injection RT as ->; cbn [word_insertions] in WI;
    try (destruct (dots_of x _ _) as [tt| |]; try discriminate WI; cbn [tbind] in WI); try rewrite PU in WI; injection WI as <-;
    cbn [opcode_place] in OP.
  all: try (eapply Z; [left; reflexivity|reflexivity|reflexivity| |]; cbn [ins i_before i_after]; intros ks J;
    try (destruct J as [<-|[]]); try (destruct J; fail); intuition auto; fail).
  all: (match type of OP with
    | (_ \/ _) /\ _ => destruct OP as [[OP|OP] OQ]
    | _ /\ (_ \/ _) => destruct OP as [OP [OQ|OQ]]
    | _ \/ _ => destruct OP as [OP|OP]
    end).
  all: (eapply Z; [left; reflexivity|reflexivity|reflexivity| |]; cbn [ins i_before i_after]; intros ks J;
    try (destruct J as [<-|[]]); try (destruct J; fail); auto; fail) ||
    (eapply Z; [right; left; reflexivity|reflexivity|reflexivity| |]; cbn [ins i_before i_after]; intros ks J;
    try (destruct J as [<-|[]]); try (destruct J; fail); auto; fail).
Qed.
End Words.
