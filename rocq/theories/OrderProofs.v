(** Where the iteration order of hash maps could matter: two main tables compiled from the
    same rules give the same trace unless rules tie. *)
From Coq Require Import Permutation.
From Verif Require Import Base BaseProofs RuleModel TranslationModel TranslationProofs TableModel RegexpModel
  RegexpSpec PatternModel MatchProofs TrieModel TrieProofs PropTrie
  HyphenationModel HyphenationProofs LoopModel LoopProofs MultipassProofs PrimaryProofs PrimaryTrace CompileModel CompileSpec
  CompileProofs MainTable ConstraintModel ConstraintSpec ConstraintProofs IndicatorModel IndicatorProofs
  CapsSpec CapsProofs CapsFacts EmphSpec EmphProofs MainSpec StepProofs TraceSpec MainPass OrderSpec.

(** ** Lists with the same members of each weight in the same order *)
Definition weighs (w : nat) (u : resolved) : bool := Nat.eqb (r_weight u) w.
Definition alike (l1 l2 : list resolved) : Prop := forall w, filter (weighs w) l1 = filter (weighs w) l2.
Lemma filter_comm {A} (f g : A -> bool) l : filter f (filter g l) = filter g (filter f l).
Proof. induction l as [|y l IH]; [reflexivity|]. cbn. destruct (f y) eqn:F, (g y) eqn:G; cbn; rewrite ?F, ?G, IH; reflexivity. Qed.
Lemma alike_filter f l1 l2 : alike l1 l2 -> alike (filter f l1) (filter f l2).
Proof. intros H w. rewrite !(filter_comm (weighs w)), (H w). reflexivity. Qed.
Lemma alike_app l1 l2 r : alike l1 l2 -> alike (l1 ++ r) (l2 ++ r).
Proof. intros H w. rewrite !filter_app, (H w). reflexivity. Qed.
Lemma alike_In l1 l2 u : alike l1 l2 -> In u l1 -> In u l2.
Proof.
  intros H I. assert (J : In u (filter (weighs (r_weight u)) l1)) by (apply filter_In; split; [exact I|apply Nat.eqb_refl]).
  rewrite H in J. apply filter_In in J. apply J.
Qed.
Lemma alike_sym l1 l2 : alike l1 l2 -> alike l2 l1.
Proof. intros H w. symmetry. apply H. Qed.
Lemma max_weight_heaviest l t : max_weight l = Some t -> exists a, filter (weighs (r_weight t)) l = a ++ [t].
Proof.
  intros M. apply max_weight_last in M. destruct M as (a & b & -> & Ha & Hb). exists (filter (weighs (r_weight t)) a).
  rewrite filter_app. cbn [filter]. unfold weighs at 2. rewrite Nat.eqb_refl. do 2 f_equal.
  destruct (filter (weighs (r_weight t)) b) as [|u r] eqn:E; [reflexivity|].
  assert (I : In u (filter (weighs (r_weight t)) b)) by (rewrite E; left; reflexivity).
  apply filter_In in I. destruct I as [I W]. apply Nat.eqb_eq in W. specialize (Hb u I). lia.
Qed.
Lemma max_alike l1 l2 : alike l1 l2 -> max_weight l1 = max_weight l2.
Proof.
  intros H. destruct (max_weight l1) as [t|] eqn:E1, (max_weight l2) as [u|] eqn:E2; auto.
  - assert (W : r_weight t = r_weight u).
    { pose proof (max_weight_spec l1) as S1. pose proof (max_weight_spec l2) as S2. rewrite E1 in S1. rewrite E2 in S2.
      destruct S1 as [I1 S1], S2 as [I2 S2]. pose proof (S1 u (alike_In _ _ _ (alike_sym _ _ H) I2)). pose proof (S2 t (alike_In _ _ _ H I1)). lia. }
    apply max_weight_heaviest in E1, E2. destruct E1 as (a & E1), E2 as (b & E2). rewrite W, H, E2 in E1.
    apply app_inj_tail in E1. destruct E1 as [_ ->]. reflexivity.
  - apply max_weight_none in E2. subst l2. pose proof (max_weight_spec l1) as S1. rewrite E1 in S1. destruct S1 as [I1 _].
    apply (alike_In _ _ _ H) in I1. destruct I1.
  - apply max_weight_none in E1. subst l1. pose proof (max_weight_spec l2) as S2. rewrite E2 in S2. destruct S2 as [I2 _].
    apply (alike_In _ _ _ (alike_sym _ _ H)) in I2. destruct I2.
Qed.

(** ** Lookup in shuffled tries *)
Section Shuffled.
Variable lower : char -> list char.
Notation paths := (find_paths lower).
Definition block (input : str) (prev : option char) (q : edge * node) : list (list edge * resolved) :=
  if edge_check (fst q) input prev then map (fun r => (fst q :: fst r, snd r)) (paths (snd q) input prev) else [].
Lemma gop_blocks input prev ts : gop lower input prev ts = flat_map (block input prev) ts.
Proof.
  induction ts as [|[e ch] r IH]; [reflexivity|]. cbn [gop flat_map]. fold (gop lower input prev). rewrite IH.
  destruct e; reflexivity.
Qed.
Lemma filter_flat_map {A B} (P : B -> bool) (g : A -> list B) l : filter P (flat_map g l) = flat_map (fun a => filter P (g a)) l.
Proof. induction l as [|y l IH]; [reflexivity|]. cbn. rewrite filter_app, IH. reflexivity. Qed.
Lemma filter_map_comm {A B} (P : B -> bool) (g : A -> B) l : filter P (map g l) = map g (filter (fun a => P (g a)) l).
Proof. induction l as [|y l IH]; [reflexivity|]. cbn. destruct (P (g y)); cbn; rewrite IH; reflexivity. Qed.
Lemma flat_map_one {A B} (g : A -> list B) l l' : Permutation l l' ->
  (forall a b, In a l -> In b l -> g a <> [] -> g b <> [] -> a = b) -> flat_map g l = flat_map g l'.
Proof.
  induction 1 as [|y l l' Pm IH|y z l|l l' l'' P1 IH1 P2 IH2]; intros U.
  - reflexivity.
  - cbn. f_equal. apply IH. intros a b Ha Hb. apply U; right; assumption.
  - cbn. destruct (g y) as [|u r] eqn:E1; [reflexivity|]. destruct (g z) as [|u' r'] eqn:E2; [reflexivity|].
    assert (y = z) by (apply U; [right; left; reflexivity|left; reflexivity|congruence|congruence]). subst z. rewrite E1 in E2. rewrite E2. reflexivity.
  - rewrite IH1 by exact U. apply IH2. intros a b Ha Hb. apply U; eapply Permutation_in; [apply Permutation_sym, P1|exact Ha|apply Permutation_sym, P1|exact Hb].
Qed.
Lemma Forall2_with {A B} (R : A -> B -> Prop) l l' : Forall2 R l l' -> Forall2 (fun a b => In a l /\ R a b) l l'.
Proof.
  intros F. assert (G : forall l0, (forall a, In a l -> In a l0) -> Forall2 (fun a b => In a l0 /\ R a b) l l').
  { induction F as [|a b l l' H F IH]; intros l0 I; constructor.
    - split; [apply I; left; reflexivity|exact H].
    - apply IH. intros c Hc. apply I. right. exact Hc. }
  apply G. auto.
Qed.
Lemma lookp_found rest c x ts : (exists ch, In (ECh x, ch) ts /\ lookp lower rest c x ts = map (fun q => (ECh x :: fst q, snd q)) (paths ch rest (Some c))) \/
  ((forall ch, ~ In (ECh x, ch) ts) /\ lookp lower rest c x ts = []).
Proof.
  induction ts as [|[e ch] r IH]; [right; split; [intros ? []|reflexivity]|]. cbn [lookp]. fold (lookp lower rest c x).
  destruct (edge_eqb (ECh x) e) eqn:E.
  - apply edge_eqb_eq in E. subst e. left. exists ch. split; [left; reflexivity|reflexivity].
  - destruct IH as [(ch' & I & ->)|(N & ->)].
    + left. exists ch'. split; [right; exact I|reflexivity].
    + right. split; [|reflexivity]. intros ch' [[= -> ->]|I]; [rewrite edge_eqb_refl in E; discriminate|exact (N ch' I)].
Qed.
Lemma check_condition e input prev : edge_check e input prev = true -> condition e.
Proof. destruct e; [discriminate|exact (fun _ => Coq.Init.Logic.I)..]. Qed.
Lemma paths_shuffled n n' : shuffle n n' -> wf n -> forall (P : list edge * resolved -> bool) input prev,
  (forall y z, In y (paths n input prev) -> In z (paths n input prev) -> P y = true -> P z = true -> ~ part_ways (fst y) (fst z)) ->
  filter P (paths n input prev) = filter P (paths n' input prev).
Proof.
  intros S. induction S as [t ts ts' us F Pm] using shuffle_ind'. intros W P input prev U. inversion W as [t0 ts0 ND WF]; subst.
  pose proof (shuffle_wf (Node t ts) (Node t us)) as W'.
  assert (SH : shuffle (Node t ts) (Node t us)).
  { apply (sh_node t ts ts' us); [|exact Pm]. clear -F. induction F as [|p q l l' (E & H & _) F IH]; constructor; auto. }
  specialize (W' SH W). inversion W' as [t1 ts1 ND' WF']; subst. rewrite Forall_forall in WF.
  assert (CH : forall e ch, In (e, ch) ts -> exists ch', In (e, ch') us /\ In (e, ch') ts' /\
     forall Q inp pr, (forall y z, In y (paths ch inp pr) -> In z (paths ch inp pr) -> Q y = true -> Q z = true -> ~ part_ways (fst y) (fst z)) ->
       filter Q (paths ch inp pr) = filter Q (paths ch' inp pr)).
  { intros e ch I. assert (G : exists ch', In (e, ch') ts' /\ forall Q inp pr, (forall y z, In y (paths ch inp pr) -> In z (paths ch inp pr) -> Q y = true -> Q z = true -> ~ part_ways (fst y) (fst z)) ->
       filter Q (paths ch inp pr) = filter Q (paths ch' inp pr)).
    { pose proof (WF _ I) as Wc. cbn in Wc. clear -F I Wc. induction F as [|p q l l' (E & _ & H) F IH]; [destruct I|]. destruct I as [->|I].
      - destruct q as [e' ch']. cbn in *. subst e'. exists ch'. split; [left; reflexivity|]. exact (H Wc).
      - destruct (IH I) as (ch' & I' & H'). exists ch'. split; [right; exact I'|exact H']. }
    destruct G as (ch' & I' & H'). exists ch'. split; [eapply Permutation_in; [exact Pm|exact I']|]. split; [exact I'|exact H']. }
  rewrite !find_paths_eq, !filter_app. rewrite find_paths_eq in U. f_equal. f_equal.
  - destruct input as [|c rest]; [reflexivity|]. destruct (single_lower lower c) as [x|] eqn:El; [|reflexivity].
    destruct (lookp_found rest c x ts) as [(ch & I & E)|(N & E)].
    + destruct (CH _ _ I) as (ch' & I' & _ & H).
      destruct (lookp_found rest c x us) as [(ch2 & I2 & E2)|(N2 & _)]; [|destruct (N2 _ I')].
      assert (ch2 = ch') by (eapply nodup_child; eauto). subst ch2. rewrite E, E2, !filter_map_comm. f_equal. apply H.
      intros y z Hy Hz Py Pz Pw. apply (U (ECh x :: fst y, snd y) (ECh x :: fst z, snd z)); auto.
      * rewrite E. apply in_or_app. right. apply in_or_app. left. apply in_map_iff. exists y. auto.
      * rewrite E. apply in_or_app. right. apply in_or_app. left. apply in_map_iff. exists z. auto.
      * destruct Pw as (cm & e & f & p' & q' & E1 & E3 & R). cbn [fst]. exists (ECh x :: cm), e, f, p', q'. rewrite E1, E3. auto.
    + destruct (lookp_found rest c x us) as [(ch2 & I2 & E2)|(N2 & E2)]; [|rewrite E, E2; reflexivity]. exfalso.
      apply (Permutation_in _ (Permutation_sym Pm)) in I2. clear -F I2 N. induction F as [|p q l l' (Ee & _) F IH]; [destruct I2|].
      destruct I2 as [->|I2]; [destruct p as [e ch]; cbn in Ee; subst e; apply (N ch); left; reflexivity|].
      apply IH; [intros ch I; apply (N ch); right; exact I|exact I2].
  - rewrite !gop_blocks, !filter_flat_map.
    assert (IB : forall q y, In q ts -> In y (block input prev q) -> In y (map (fun t => ([], t)) (opt_list t) ++
       match input with c :: rest => match single_lower lower c with Some x => lookp lower rest c x ts | None => [] end | [] => [] end ++ gop lower input prev ts)).
    { intros q y Iq Iy. apply in_or_app. right. apply in_or_app. right. rewrite gop_blocks. apply in_flat_map. eauto. }
    assert (G : Forall2 (fun p q => fst p = fst q /\ filter P (block input prev p) = filter P (block input prev q)) ts ts').
      { apply Forall2_with in F. clear -F WF U IB. assert (G : forall (R R' : edge * node -> edge * node -> Prop) l l', (forall p q, R p q -> R' p q) -> Forall2 R l l' -> Forall2 R' l l').
        { intros R R' l l' H. induction 1; constructor; auto. }
        eapply G; [|exact F]. intros [e ch] [e' ch'] (I & Ee & _ & H). cbn [fst snd] in *. subst e'. split; [reflexivity|]. unfold block. cbn [fst snd].
        destruct (edge_check e input prev) eqn:EC; [|reflexivity]. rewrite !filter_map_comm. f_equal. apply H; [exact (WF _ I)|].
        intros y z Hy Hz Py Pz Pw. apply (U (e :: fst y, snd y) (e :: fst z, snd z)); auto.
        - apply (IB _ _ I). unfold block. cbn [fst snd]. rewrite EC. apply in_map_iff. exists y. auto.
        - apply (IB _ _ I). unfold block. cbn [fst snd]. rewrite EC. apply in_map_iff. exists z. auto.
        - destruct Pw as (cm & e1 & f & p' & q' & E1 & E3 & R). cbn [fst]. exists (e :: cm), e1, f, p', q'. rewrite E1, E3. auto. }
    assert (EQ : flat_map (fun a => filter P (block input prev a)) ts = flat_map (fun a => filter P (block input prev a)) ts').
    { clear -G. induction G as [|p q l l' [_ E] G IH]; [reflexivity|]. cbn. rewrite E, IH. reflexivity. }
    assert (ONE : forall a b, In a ts -> In b ts -> filter P (block input prev a) <> [] -> filter P (block input prev b) <> [] -> fst a = fst b).
    { intros a b Ia Ib Na Nb. destruct (filter P (block input prev a)) as [|ya la] eqn:Ea; [congruence|]. destruct (filter P (block input prev b)) as [|yb lb] eqn:Eb; [congruence|].
      assert (Ja : In ya (filter P (block input prev a))) by (rewrite Ea; left; reflexivity).
      assert (Jb : In yb (filter P (block input prev b))) by (rewrite Eb; left; reflexivity).
      apply filter_In in Ja, Jb. destruct Ja as [Ja Pa], Jb as [Jb Pb].
      destruct (edge_eq_dec (fst a) (fst b)) as [E|NE]; [exact E|]. exfalso.
      apply (U ya yb (IB _ _ Ia Ja) (IB _ _ Ib Jb) Pa Pb). unfold block in Ja, Jb.
      destruct (edge_check (fst a) input prev) eqn:Ca; [|destruct Ja]. destruct (edge_check (fst b) input prev) eqn:Cb; [|destruct Jb].
      apply in_map_iff in Ja, Jb. destruct Ja as (ra & <- & _), Jb as (rb & <- & _). cbn [fst].
      exists [], (fst a), (fst b), (fst ra), (fst rb). split; [reflexivity|]. split; [reflexivity|]. split; [exact NE|].
      split; eapply check_condition; eassumption. }
    rewrite EQ. apply flat_map_one; [exact Pm|].
    assert (KEY : forall q, In q ts' -> exists p, In p ts /\ fst p = fst q /\ filter P (block input prev p) = filter P (block input prev q)).
    { intros q Iq. clear -G Iq. induction G as [|p0 q0 l l' [E1 E2] G IH]; [destruct Iq|]. destruct Iq as [->|Iq]; [exists p0; split; [left; reflexivity|auto]|].
      destruct (IH Iq) as (p & Ip & R). exists p. split; [right; exact Ip|exact R]. }
    intros a b Ia Ib Na Nb. destruct (KEY a Ia) as (p & Ip & Ep & Fp). destruct (KEY b Ib) as (q & Iq & Eq & Fq).
    rewrite <- Fp in Na. rewrite <- Fq in Nb. pose proof (ONE p q Ip Iq Na Nb) as X.
    assert (NT : NoDup (map fst ts')).
    { eapply Permutation_NoDup; [apply Permutation_map, Permutation_sym, Pm|exact ND']. }
    destruct a as [ea ca], b as [eb cb]. cbn [fst] in *. assert (EE : ea = eb) by congruence. clear - EE Ia Ib NT. subst eb. f_equal. eapply nodup_child; eauto.
Qed.
Lemma find_alike compat ctx d l n n1 n2 input :
  (forall a, In a l -> well_oriented a) ->
  trie_insert_all compat ctx d node_empty l = TOk n -> shuffle n n1 -> shuffle n n2 ->
  untied compat ctx d lower l input ->
  forall q prev, alike (find_translations lower n1 (skipn q input) prev) (find_translations lower n2 (skipn q input) prev).
Proof.
  intros W E S1 S2 U q prev.
  assert (Hn : all_nonempty d l).
  { intros a Ha Hf. assert (X : ~ all_nonempty d l) by (intros H; apply (H a Ha Hf)).
    rewrite (insert_all_panic compat ctx d l node_empty X) in E. discriminate. }
  rewrite (insert_all_ok compat ctx d l node_empty Hn) in E. inversion E; subst n; clear E.
  change (fold_left _ l node_empty) with (build compat ctx d l) in S1, S2.
  pose proof (build_wf compat ctx d l) as Wf.
  assert (G : forall n', shuffle (build compat ctx d l) n' -> forall w,
    filter (weighs w) (find_translations lower n' (skipn q input) prev) = filter (weighs w) (find_translations lower (build compat ctx d l) (skipn q input) prev)).
  { intros n' S w. unfold find_translations. rewrite !find_paths_snd, !filter_map_comm. f_equal. symmetry.
    apply paths_shuffled; [exact S|exact Wf|]. intros [p t] [p' t'] Hy Hz Py Pz. cbn [fst snd] in *.
    apply find_paths_In in Hy, Hz; [|exact Wf..]. destruct Hy as [Sy My], Hz as [Sz Mz].
    assert (IF : forall p t, stored (build compat ctx d l) p t -> path_matches lower p (skipn q input) prev -> exists full a,
      in_force compat ctx d l full a /\ applies lower ctx d a (skipn q input) prev /\ t = offer ctx d full a /\ p = ins_path ctx d a).
    { clear - W. intros p t Hs Hm. apply build_stored in Hs. destruct Hs as (full & a & Hc & ->).
      assert (Ep : ins_path ctx d a = p).
      { destruct Hc as (l1 & l2 & El & _). apply same_path_true.
        apply (proj1 (filter_In (same_path ctx d p) a l)). rewrite El. apply in_or_app; simpl; auto. }
      subst p.
      assert (Ha : In a l).
      { destruct Hc as (l1 & l2 & El & _).
        apply (proj1 (filter_In (same_path ctx d (ins_path ctx d a)) a l)). rewrite El. apply in_or_app; simpl; auto. }
      exists full, a. split; [apply chosen_in_force; auto|]. split; [apply path_applies; auto|auto]. }
    destruct (IF p t Sy My) as (f & a & F1 & A1 & -> & ->). destruct (IF p' t' Sz Mz) as (g & b & F2 & A2 & -> & ->).
    apply (U q prev f a g b F1 A1 F2 A2). unfold weighs in Py, Pz. apply Nat.eqb_eq in Py, Pz. congruence. }
  intros w. rewrite (G n1 S1), (G n2 S2). reflexivity.
Qed.
End Shuffled.

Section Tables.
Variable lower upper : char -> list char.
Variable p1 p2 : ptable.
Hypothesis EM : p_match p1 = p_match p2.
Hypothesis EX : p_context p1 = p_context p2.
Hypothesis ED : p_dir p1 = p_dir p2.
Hypothesis EG : p_digits p1 = p_digits p2.
Hypothesis EC : forall c, assoc c (p_chars p1) = assoc c (p_chars p2).
Hypothesis EU : p_undefined p1 = p_undefined p2.
Hypothesis EF : p_fallback p1 = p_fallback p2.
Hypothesis OK1 : table_ok lower p1.
Hypothesis OK2 : table_ok lower p2.
Variable indications : list (list resolved).
Variable limits : pos_flags.
Variable input : str.
Notation find := (find_translations lower).
Hypothesis ST : forall q prev, alike (find (p_trie p1) (skipn q input) prev) (find (p_trie p2) (skipn q input) prev).
Hypothesis SN : forall q prev, alike (find (p_nocross p1) (skipn q input) prev) (find (p_nocross p2) (skipn q input) prev).
Hypothesis S6 : forall q prev, alike (find (p_comp6 p1) (skipn q input) prev) (find (p_comp6 p2) (skipn q input) prev).

Lemma later_trie p rest prev : table_ok lower p -> later (find (p_trie p) rest prev) = [].
Proof.
  intros OK. destruct (later (find (p_trie p) rest prev)) as [|t l] eqn:E; [reflexivity|].
  assert (I : In t (later (find (p_trie p) rest prev))) by (rewrite E; left; reflexivity).
  apply later_In in I. destruct I as [I Z]. apply (ok_trie _ _ OK) in I. destruct Z. apply I.
Qed.
(** the candidates are a part of what the rules offer and what is the same in both *)
Lemma candidates_form s : s_rest s = skipn (s_pos s) input ->
  match primary_candidates lower p1 limits input s, primary_candidates lower p2 limits input s with
  | Ok (c1, d1), Ok (c2, d2) => d1 = d2 /\ max_weight (unseen (s_seen s) c1) = max_weight (unseen (s_seen s) c2)
  | Panic, Panic | OutOfFuel, OutOfFuel => True
  | _, _ => False
  end.
Proof.
  intros ER. unfold primary_candidates. rewrite <- EM, <- EX.
  destruct (match_find lower (p_match p1) (Nat.eqb (blen (s_rest s)) (blen input)) (s_rest s)) as [ms| |]; cbn [bind]; auto.
  destruct (cpats_find lower (p_context p1) (s_env s) (Nat.eqb (blen (s_rest s)) (blen input)) (s_rest s)) as [xs| |]; cbn [bind]; auto.
  rewrite (later_trie p1 _ _ OK1), (later_trie p2 _ _ OK2). cbn [app]. split; [reflexivity|].
  destruct (flag_at k_comp6 limits (s_pos s)).
  - unfold unseen. rewrite ER. apply max_alike, alike_filter, S6.
  - set (R := now ms ++ now xs ++ now (s_delayed s ++ later ms ++ later xs)).
    assert (PD : forall l, prefer_digit p2 limits (s_rest s) (s_pos s) l = prefer_digit p1 limits (s_rest s) (s_pos s) l)
      by (intros l; unfold prefer_digit; rewrite <- ED, <- EG; reflexivity).
    assert (PF : exists f T, forall l, prefer_digit p1 limits (s_rest s) (s_pos s) l = filter f l ++ T).
    { assert (ID : exists f T, forall l : list resolved, l = filter f l ++ T).
      { exists (fun _ => true), []. intros l. rewrite app_nil_r. induction l as [|y l IH]; [reflexivity|]. cbn. f_equal. exact IH. }
      unfold prefer_digit. destruct (p_dir p1); [exact ID|]. destruct (flag_at k_digit limits (s_pos s)); [|exact ID].
      destruct (s_rest s) as [|c ?]; [exact ID|]. destruct (assoc c (p_digits p1)) as [t|]; [|exact ID]. eexists _, [t]. intros. reflexivity. }
    destruct PF as (f & T & PF). rewrite PD, !PF.
    unfold unseen. destruct (flag_at k_dont_contract limits (s_pos s)); rewrite !filter_app, <- !app_assoc;
      (apply max_alike, alike_app; repeat apply alike_filter; rewrite ER; apply ST).
Qed.
Lemma nocross_max s : s_rest s = skipn (s_pos s) input ->
  max_weight (nocross_candidates lower p1 limits (s_rest s) (s_prev s) (s_pos s)) =
  max_weight (nocross_candidates lower p2 limits (s_rest s) (s_prev s) (s_pos s)).
Proof.
  intros ER. unfold nocross_candidates. rewrite ER. apply max_alike, alike_filter, SN.
Qed.
Lemma step_same s : s_rest s = skipn (s_pos s) input ->
  primary_step lower upper p1 indications limits input s = primary_step lower upper p2 indications limits input s.
Proof.
  intros ER. unfold primary_step. rewrite (nocross_max s ER). pose proof (candidates_form s ER) as CF.
  destruct (primary_candidates lower p1 limits input s) as [[c1 d1]| |], (primary_candidates lower p2 limits input s) as [[c2 d2]| |];
    try contradiction; cbn [bind]; auto. destruct CF as [-> ->].
  assert (AC : forall t, adjust_case upper p1 limits (s_pos s) t = adjust_case upper p2 limits (s_pos s) t)
    by (intros t; unfold adjust_case; rewrite ED; reflexivity).
  assert (FP : forall c, fallback_piece p1 c = fallback_piece p2 c)
    by (intros c; unfold fallback_piece; rewrite EC, EU, EF; reflexivity).
  destruct (max_weight (nocross_candidates lower p2 limits (s_rest s) (s_prev s) (s_pos s))) as [nc|];
    destruct (max_weight (unseen (s_seen s) c2)) as [t|]; rewrite ?AC.
  - destruct (Nat.leb (r_weight t) (r_weight nc)); rewrite ?AC; reflexivity.
  - reflexivity.
  - reflexivity.
  - destruct (s_rest s) as [|c r]; [reflexivity|]. rewrite FP. reflexivity.
Qed.
Hypothesis I : indications_ok indications.
Lemma loop_same fuel : forall s, reach lower upper p1 indications limits input s ->
  primary_loop lower upper p1 indications limits input fuel s = primary_loop lower upper p2 indications limits input fuel s.
Proof.
  induction fuel as [|f IH]; intros s R; [reflexivity|]. cbn [primary_loop].
  pose proof (pi_rest _ _ _ _ _ (reach_inv lower upper p1 indications limits input OK1 I s R)) as ER.
  rewrite <- (step_same s ER). destruct (primary_step lower upper p1 indications limits input s) as [[s'|out]| |] eqn:E; cbn [bind]; auto.
  apply IH. eapply R_step; eauto.
Qed.
Lemma run_same : primary_run lower upper p1 indications limits input = primary_run lower upper p2 indications limits input.
Proof.
  unfold primary_run. rewrite (loop_same _ _ (R_init _ _ _ _ _ _)). unfold primary_fuel. rewrite EM, EX. reflexivity.
Qed.
End Tables.

(** ** The indications *)
Lemma contraction_same lower compat x rules o1 o2 dots r n1 n2 n1' n2' : permuting o1 -> permuting o2 ->
  contraction_trie compat x rules o1 dots r = TOk n1 -> shuffle n1 n1' ->
  contraction_trie compat x rules o2 dots r = TOk n2 -> shuffle n2 n2' ->
  forall chars pos, is_empty (find_translations lower n1' (skipn pos chars) (char_before chars pos)) =
                    is_empty (find_translations lower n2' (skipn pos chars) (char_before chars pos)).
Proof.
  intros O1 O2 E1 S1 E2 S2 chars pos.
  pose proof (contraction_found lower compat x rules o1 O1 dots r n1 n1' E1 S1 chars pos) as F1.
  pose proof (contraction_found lower compat x rules o2 O2 dots r n2 n2' E2 S2 chars pos) as F2.
  destruct (is_empty (find_translations lower n1' _ _)), (is_empty (find_translations lower n2' _ _)); auto.
  - rewrite F1. apply F2. reflexivity.
  - symmetry. rewrite F2. apply F1. reflexivity.
Qed.
Lemma positions_same lower n1 n2 chars :
  (forall pos, is_empty (find_translations lower n1 (skipn pos chars) (char_before chars pos)) =
               is_empty (find_translations lower n2 (skipn pos chars) (char_before chars pos))) ->
  forall s pos, skipn pos chars = s -> pos <= length chars ->
  contraction_positions lower n1 (char_before chars pos) pos s = contraction_positions lower n2 (char_before chars pos) pos s.
Proof.
  intros H. induction s as [|c r IH]; intros pos ES L; cbn [contraction_positions]; [reflexivity|].
  assert (EN : nth_error chars pos = Some c).
  { rewrite <- (firstn_skipn pos chars), nth_error_app2 by (rewrite firstn_length; lia).
    rewrite ES, firstn_length. replace (pos - Nat.min pos (length chars)) with 0 by lia. reflexivity. }
  assert (EL : pos < length chars) by (apply nth_error_Some; congruence).
  assert (ES' : skipn (S pos) chars = r) by (pose proof (skipn_app_add chars [c] r pos ES) as X; cbn [length] in X; rewrite Nat.add_1_r in X; exact X).
  replace (Some c) with (char_before chars (S pos)) by exact EN. rewrite (IH (S pos) ES' EL). f_equal.
  specialize (H pos). rewrite ES in H. rewrite H. reflexivity.
Qed.
Lemma indications_same lower sort compat x rules i1 i2 input sp :
  indicators_built compat x rules i1 -> indicators_built compat x rules i2 ->
  indications_of lower sort i1 input sp = indications_of lower sort i2 input sp.
Proof.
  intros (a1 & a2 & j1 & A1 & A2 & EA & C1 & M1 & N1 & U1 & L1 & K1) (b1 & b2 & j2 & B1 & B2 & EB & C2 & M2 & N2 & U2 & L2 & K2).
  unfold build_indicators in EA, EB.
  destruct (build_letter_ind compat x rules a1) as [la| |] eqn:ELa; try discriminate. cbn [tbind] in EA.
  destruct (build_nocont_ind compat x rules a2) as [na| |] eqn:ENa; try discriminate. cbn [tbind] in EA. injection EA as <-.
  destruct (build_letter_ind compat x rules b1) as [lb| |] eqn:ELb; try discriminate. cbn [tbind] in EB.
  destruct (build_nocont_ind compat x rules b2) as [nb| |] eqn:ENb; try discriminate. cbn [tbind] in EB. injection EB as <-.
  cbn [in_comp in_emph in_numeric in_caps in_letter in_nocont] in *.
  assert (EL : opt_placed (in_letter i1) (fun u => letter_precompute lower u input) = opt_placed (in_letter i2) (fun u => letter_precompute lower u input)).
  { unfold build_letter_ind in ELa, ELb. destruct (last_rule rules _) as [[dots r]|].
    - destruct (contraction_trie compat x rules a1 dots r) as [ta| |] eqn:Ta; try discriminate. cbn [tbind] in ELa. injection ELa as <-.
      destruct (contraction_trie compat x rules b1 dots r) as [tb| |] eqn:Tb; try discriminate. cbn [tbind] in ELb. injection ELb as <-.
      unfold same_letter in L1, L2. destruct (in_letter i1) as [u1|]; [|destruct L1]. destruct (in_letter i2) as [u2|]; [|destruct L2].
      destruct L1 as (S1 & P1 & P2 & P3 & P4 & P5 & P6). destruct L2 as (S2 & Q1 & Q2 & Q3 & Q4 & Q5 & Q6).
      cbn [li_trie li_sign li_letters li_spaces li_never li_after li_before] in *. cbn [opt_placed].
      unfold letter_precompute. rewrite P1, Q1. f_equal. apply filter_ext. intros pos. f_equal.
      + unfold isolated_at. rewrite P2, P3, P4, P5, P6, Q2, Q3, Q4, Q5, Q6. reflexivity.
      + unfold contraction_at. rewrite P4, Q4. destruct (nth_error input pos); [|reflexivity]. do 2 f_equal.
        eapply contraction_same; [exact A1|exact B1|exact Ta|exact S1|exact Tb|exact S2].
    - injection ELa as <-. injection ELb as <-. unfold same_letter in L1, L2. destruct (in_letter i1); [destruct L1|]. destruct (in_letter i2); [destruct L2|]. reflexivity. }
  assert (EN : opt_placed (in_nocont i1) (fun u => nocont_precompute lower u input) = opt_placed (in_nocont i2) (fun u => nocont_precompute lower u input)).
  { unfold build_nocont_ind in ENa, ENb. destruct (last_rule rules _) as [[dots r]|].
    - destruct (is_empty (contractions rules)).
      + injection ENa as <-. injection ENb as <-. unfold same_nocont in K1, K2. destruct (in_nocont i1); [destruct K1|]. destruct (in_nocont i2); [destruct K2|]. reflexivity.
      + destruct (contraction_trie compat x rules a2 dots r) as [ta| |] eqn:Ta; try discriminate. cbn [tbind] in ENa. injection ENa as <-.
        destruct (contraction_trie compat x rules b2 dots r) as [tb| |] eqn:Tb; try discriminate. cbn [tbind] in ENb. injection ENb as <-.
        unfold same_nocont in K1, K2. destruct (in_nocont i1) as [u1|]; [|destruct K1]. destruct (in_nocont i2) as [u2|]; [|destruct K2].
        destruct K1 as (S1 & P1). destruct K2 as (S2 & Q1). cbn [no_trie no_sign] in *. cbn [opt_placed]. unfold nocont_precompute.
        rewrite P1, Q1. f_equal. apply (positions_same lower (no_trie u1) (no_trie u2) input) with (pos := 0); [|reflexivity|lia].
        intros pos. eapply contraction_same; [exact A2|exact B2|exact Ta|exact S1|exact Tb|exact S2].
    - injection ENa as <-. injection ENb as <-. unfold same_nocont in K1, K2. destruct (in_nocont i1); [destruct K1|]. destruct (in_nocont i2); [destruct K2|]. reflexivity. }
  unfold indications_of. rewrite C1, C2, M1, M2, N1, N2, U1, U2. rewrite EL, EN. reflexivity.
Qed.

(** ** The pass *)
Section Pass.
Variable is_alphabetic : char -> bool.
Variable compat : bool.
Variable read_dictionary : str -> tres hyph.
Variable d : direction.
Variable x : context.
Variable rules : list rule.
Variable lower upper : char -> list char.
Variable sort : list event -> res (list event).
Notation built := (main_built is_alphabetic compat read_dictionary d x rules).
Hypothesis DR : dictionaries_read read_dictionary.
Hypothesis SR : sort_rearranges sort.
Notation untied := (untied compat (trie_ctx d x) d lower).
Lemma main_same m1 m2 input spans : built m1 -> built m2 ->
  untied (main_entries d x rules) input -> untied (nocross_entries x rules) input -> untied (comp6_entries x rules) input ->
  main_trace lower upper sort m1 input spans = main_trace lower upper sort m2 input spans.
Proof.
  intros B1 B2 T1 T2 T3. destruct B1 as [R1 I1 C1 S1]. destruct B2 as [R2 I2 C2 S2].
  unfold main_trace, enriched. rewrite S1, S2. destruct (match build_scanner x rules with Some k => enrich k input spans | None => Ok spans end) as [sp| |]; cbn [bind]; auto.
  rewrite <- (indications_same lower sort compat x rules _ _ input sp I1 I2).
  destruct (indications_of lower sort (mt_indicators m1) input sp) as [ind| |] eqn:EI; cbn [bind]; auto.
  rewrite C1, C2. destruct (limits_of (build_constrainers is_alphabetic read_dictionary d x rules) input sp) as [lim| |]; cbn [bind]; auto.
  pose proof (compiled_ok compat read_dictionary d x rules lower _ R1) as OK1.
  pose proof (compiled_ok compat read_dictionary d x rules lower _ R2) as OK2.
  destruct R1 as (q1 & Q1 & A1 & A2 & A3 & E1 & E2 & E3 & E4 & E5 & E6 & E7).
  destruct R2 as (q2 & Q2 & B1 & B2 & B3 & F1 & F2 & F3 & F4 & F5 & F6 & F7). rewrite Q1 in Q2. injection Q2 as <-.
  destruct (compile_spec _ _ _ _ _ _ Q1) as (J1 & J2 & J3 & _).
  assert (IO : indications_ok ind).
  { assert (SO : sort_returns sort (emph_events (in_emph (mt_indicators m1)) 0 input sp)).
    { unfold sort_returns. destruct (Nat.le_gt_cases (length (emph_events (in_emph (mt_indicators m1)) 0 input sp)) 20) as [L|L]; [auto|].
      right. unfold indications_of, emph_precompute, event_sort in EI.
      destruct (Nat.leb_spec (length (emph_events (in_emph (mt_indicators m1)) 0 input sp)) 20) as [L'|L']; [lia|].
      destruct (sort (emph_events (in_emph (mt_indicators m1)) 0 input sp)) as [l'| |] eqn:El; try discriminate. exists l'. split; [reflexivity|].
      apply SR, El. }
    destruct (indications_spec compat x rules (mt_indicators m1) lower sort input sp I1 SO) as (em & caps & ind' & _ & _ & E' & _ & _ & RS).
    rewrite EI in E'. injection E' as <-. intros l t Hl Ht. apply (rule_sign_fields rules). eapply RS; eauto. }
  apply run_same; try congruence; auto.
  - eapply find_alike; [|exact J1|exact A1|exact B1|exact T1]. intros a Ha. apply (main_oriented d x rules a Ha).
  - eapply find_alike; [|exact J2|exact A2|exact B2|exact T2]. intros a Ha. apply (nocross_oriented x rules a Ha).
  - eapply find_alike; [|exact J3|exact A3|exact B3|exact T3]. intros a Ha. apply (comp6_oriented x rules a Ha).
Qed.
End Pass.
