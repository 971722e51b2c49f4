(** A rule that applies nowhere in a text does not change its translation. *)
From Coq Require Import Permutation Sorted.
From Verif Require Import Base BaseProofs RuleModel TranslationModel TranslationProofs TableModel RegexpModel
  RegexpSpec PatternModel MatchProofs TrieModel TrieProofs PropTrie
  HyphenationModel HyphenationProofs LoopModel LoopProofs MultipassProofs PrimaryProofs PrimaryTrace CompileModel CompileSpec
  CompileProofs MainTable ConstraintModel ConstraintSpec ConstraintProofs IndicatorModel IndicatorProofs
  CapsSpec CapsProofs CapsFacts EmphSpec EmphProofs MainSpec StepProofs TraceSpec MainPass OrderSpec OrderProofs FrameSpec.

(** ** The order in which a lookup lists what it finds *)
Inductive comes : list edge -> list edge -> Prop :=
| Comes_nil e q : comes [] (e :: q)
| Comes_char c e p q : condition e -> comes (ECh c :: p) (e :: q)
| Comes_condition e f p q : condition e -> condition f -> e <> f -> comes (e :: p) (f :: q)
| Comes_same e p q : comes p q -> comes (e :: p) (e :: q).
Lemma comes_both p q : comes p q -> comes q p -> part_ways p q.
Proof.
  intros H. induction H as [e q|c e p q C|e f p q C1 C2 N|e p q H IH]; intros G.
  - inversion G.
  - destruct e; [destruct C|..]; inversion G as [| ? ? ? ? X | ? ? ? ? X1 X2 X3|]; subst; contradiction.
  - exists [], e, f, p, q. auto.
  - inversion G as [| ? ? ? ? X | ? ? ? ? X1 X2 X3| ? ? ? X]; subst.
    + destruct X.
    + congruence.
    + destruct (IH X) as (cm & e1 & f & p' & q' & -> & -> & R). exists (e :: cm), e1, f, p', q'. auto.
Qed.
Lemma sorted_app {A} (R : A -> A -> Prop) a b : StronglySorted R a -> StronglySorted R b ->
  (forall y z, In y a -> In z b -> R y z) -> StronglySorted R (a ++ b).
Proof.
  intros Sa Sb H. induction Sa as [|y a Sa IH F]; [exact Sb|]. cbn. constructor.
  - apply IH. intros y' z Hy Hz. apply H; [right; exact Hy|exact Hz].
  - apply Forall_app. split; [exact F|]. apply Forall_forall. intros z Hz. apply H; [left; reflexivity|exact Hz].
Qed.
Lemma sorted_filter {A} (R : A -> A -> Prop) f l : StronglySorted R l -> StronglySorted R (filter f l).
Proof.
  induction 1 as [|y l S IH F]; cbn; [constructor|]. destruct (f y); [|exact IH]. constructor; [exact IH|].
  apply Forall_forall. intros z Hz. apply filter_In in Hz. rewrite Forall_forall in F. apply F, Hz.
Qed.
Lemma sorted_unique {A} (R : A -> A -> Prop) : forall l l', StronglySorted R l -> StronglySorted R l' -> NoDup l -> NoDup l' ->
  (forall y, In y l <-> In y l') -> (forall y z, In y l -> In z l -> R y z -> R z y -> False) -> l = l'.
Proof.
  induction l as [|y l IH]; intros l' S S' N N' E A1.
  - destruct l' as [|z l']; [reflexivity|]. exfalso. apply (E z). left. reflexivity.
  - destruct l' as [|z l']; [exfalso; apply (E y); left; reflexivity|].
    inversion S as [|? ? S1 F1]; subst. inversion S' as [|? ? S1' F1']; subst. inversion N as [|? ? N1 N2]; subst. inversion N' as [|? ? N1' N2']; subst.
    rewrite Forall_forall in F1, F1'.
    assert (EYZ : y = z).
    { assert (Iz : In z (y :: l)) by (apply E; left; reflexivity). assert (Iy : In y (z :: l')) by (apply E; left; reflexivity).
      destruct Iz as [X|Iz]; [exact X|]. destruct Iy as [X|Iy]; [congruence|]. exfalso.
      apply (A1 y z); [left; reflexivity|right; exact Iz|apply F1, Iz|apply F1', Iy]. }
    subst z. f_equal. apply IH; auto.
    + intros w. split; intros H.
      * assert (X : In w (y :: l')) by (apply E; right; exact H). destruct X as [->|X]; [contradiction|exact X].
      * assert (X : In w (y :: l)) by (apply E; right; exact H). destruct X as [->|X]; [contradiction|exact X].
    + intros y' z' Hy Hz. apply A1; right; assumption.
Qed.

Section Lookup.
Variable lower : char -> list char.
Notation paths := (find_paths lower).
Definition listed (y z : list edge * resolved) : Prop := comes (fst y) (fst z).
Lemma sorted_map e l : StronglySorted listed l -> StronglySorted listed (map (fun q => (e :: fst q, snd q)) l).
Proof.
  induction 1 as [|y l S IH F]; cbn; constructor; [exact IH|]. apply Forall_forall. intros z Hz. apply in_map_iff in Hz.
  destruct Hz as (w & <- & Hw). unfold listed. cbn [fst]. apply Comes_same. rewrite Forall_forall in F. apply F, Hw.
Qed.
Lemma paths_sorted n : wf n -> forall input prev, StronglySorted listed (paths n input prev).
Proof.
  induction n as [t ts IH] using node_ind'. intros W input prev. inversion W as [t0 ts0 ND WF]; subst. rewrite Forall_forall in IH, WF.
  assert (SC : forall e ch, In (e, ch) ts -> forall inp pr, StronglySorted listed (paths ch inp pr)).
  { intros e ch I inp pr. apply (IH (e, ch) I). exact (WF (e, ch) I). }
  rewrite find_paths_eq. apply sorted_app; [destruct t; repeat constructor|apply sorted_app|].
  - destruct input as [|c rest]; [constructor|]. destruct (single_lower lower c) as [y|]; [|constructor].
    destruct (lookp_found lower rest c y ts) as [(ch & I & ->)|(_ & ->)]; [|constructor]. apply sorted_map. eapply SC, I.
  - rewrite gop_blocks. clear -ND SC. induction ts as [|[e ch] ts IH]; [constructor|]. cbn [flat_map]. inversion ND as [|? ? N1 N2]; subst. apply sorted_app.
    + unfold block. cbn [fst snd]. destruct (edge_check e input prev); [|constructor]. apply sorted_map. apply (SC e ch). left. reflexivity.
    + apply IH; [exact N2|]. intros e' ch' I. apply (SC e' ch'). right. exact I.
    + intros y z Hy Hz. unfold block in Hy at 1. cbn [fst snd] in Hy. destruct (edge_check e input prev) eqn:C1; [|destruct Hy].
      apply in_map_iff in Hy. destruct Hy as (w & <- & _). apply in_flat_map in Hz. destruct Hz as ([e' ch'] & I & Hz). unfold block in Hz. cbn [fst snd] in Hz.
      destruct (edge_check e' input prev) eqn:C2; [|destruct Hz]. apply in_map_iff in Hz. destruct Hz as (v & <- & _). unfold listed. cbn [fst].
      apply Comes_condition; [eapply check_condition; eauto|eapply check_condition; eauto|]. intros <-. apply N1. apply in_map_iff. exists (e, ch'). auto.
  - intros y z Hy Hz. destruct input as [|c rest]; [destruct Hy|]. destruct (single_lower lower c) as [x|]; [|destruct Hy].
    destruct (lookp_found lower rest c x ts) as [(ch & I & E)|(_ & E)]; rewrite E in Hy; [|destruct Hy]. apply in_map_iff in Hy. destruct Hy as (w & <- & _).
    rewrite gop_blocks in Hz. apply in_flat_map in Hz. destruct Hz as ([e' ch'] & I' & Hz). unfold block in Hz. cbn [fst snd] in Hz.
    destruct (edge_check e' (c :: rest) prev) eqn:C2; [|destruct Hz]. apply in_map_iff in Hz. destruct Hz as (v & <- & _). unfold listed. cbn [fst].
    apply Comes_char. eapply check_condition; eauto.
  - intros y z Hy Hz. destruct t as [u|]; [|destruct Hy]. destruct Hy as [<-|[]]. unfold listed. cbn [fst].
    assert (NE : fst z <> []); [|destruct (fst z); [congruence|constructor]].
    apply in_app_iff in Hz. destruct Hz as [Hz|Hz].
    + destruct input as [|c rest]; [destruct Hz|]. destruct (single_lower lower c) as [x|]; [|destruct Hz].
      destruct (lookp_found lower rest c x ts) as [(ch & I & E)|(_ & E)]; rewrite E in Hz; [|destruct Hz]. apply in_map_iff in Hz. destruct Hz as (w & <- & _). discriminate.
    + rewrite gop_blocks in Hz. apply in_flat_map in Hz. destruct Hz as ([e' ch'] & I' & Hz). unfold block in Hz. cbn [fst snd] in Hz.
      destruct (edge_check e' input prev); [|destruct Hz]. apply in_map_iff in Hz. destruct Hz as (v & <- & _). discriminate.
Qed.
Lemma paths_framed n n' (P : list edge * resolved -> bool) input prev : wf n -> wf n' ->
  (forall p t, path_matches lower p input prev -> (stored n p t <-> stored n' p t)) ->
  (forall y z, In y (paths n input prev) -> In z (paths n input prev) -> P y = true -> P z = true -> ~ part_ways (fst y) (fst z)) ->
  filter P (paths n input prev) = filter P (paths n' input prev).
Proof.
  intros W W' S U. assert (ND : forall m, wf m -> NoDup (filter P (paths m input prev))).
  { intros m Wm. apply NoDup_filter. eapply NoDup_map_inv. apply (find_paths_NoDup lower m input prev Wm). }
  apply (sorted_unique listed).
  - apply sorted_filter, paths_sorted, W.
  - apply sorted_filter, paths_sorted, W'.
  - apply ND, W.
  - apply ND, W'.
  - intros [p t]. rewrite !filter_In, (find_paths_In lower n) by exact W. rewrite (find_paths_In lower n') by exact W'.
    split; intros [[H1 H2] H3]; (split; [split; [apply (S p t H2), H1|exact H2]|exact H3]).
  - intros y z Hy Hz C1 C2. apply filter_In in Hy, Hz. apply (U y z); try apply Hy; try apply Hz. apply comes_both; assumption.
Qed.

(** ** Entries that apply nowhere *)
Section Entries.
Variable compat : bool.
Variable ctx : classes.
Variable d : direction.
Variable l1 extra l2 : list ins_args.
Variable input : str.
Hypothesis W : forall a, In a (l1 ++ extra ++ l2) -> well_oriented a.
Hypothesis NA : forall a q prev, In a extra -> ~ applies lower ctx d a (skipn q input) prev.
Lemma find_framed n m n' m' :
  trie_insert_all compat ctx d node_empty (l1 ++ l2) = TOk n -> shuffle n n' ->
  trie_insert_all compat ctx d node_empty (l1 ++ extra ++ l2) = TOk m -> shuffle m m' ->
  untied compat ctx d lower (l1 ++ l2) input ->
  forall q prev, alike (find_translations lower n' (skipn q input) prev) (find_translations lower m' (skipn q input) prev).
Proof.
  intros E S E' S' U q prev.
  assert (IA : forall l k, trie_insert_all compat ctx d node_empty l = TOk k -> k = build compat ctx d l).
  { intros l k Ek. assert (Hn : all_nonempty d l).
    { intros a Ha Hf. assert (X : ~ all_nonempty d l) by (intros H; apply (H a Ha Hf)). rewrite (insert_all_panic compat ctx d l node_empty X) in Ek. discriminate. }
    rewrite (insert_all_ok compat ctx d l node_empty Hn) in Ek. injection Ek as <-. reflexivity. }
  apply IA in E, E'. subst n m.
  assert (ST : forall p t, path_matches lower p (skipn q input) prev -> (stored n' p t <-> stored m' p t)).
  { intros p t M. rewrite <- (shuffle_stored _ _ S), <- (shuffle_stored _ _ S'). rewrite !build_stored.
    assert (EF : filter (same_path ctx d p) (l1 ++ extra ++ l2) = filter (same_path ctx d p) (l1 ++ l2)); [|rewrite EF; reflexivity].
    rewrite !filter_app. f_equal. assert (X : filter (same_path ctx d p) extra = []); [|rewrite X; reflexivity].
    destruct (filter (same_path ctx d p) extra) as [|a r] eqn:EE; [reflexivity|]. exfalso.
    assert (I : In a (filter (same_path ctx d p) extra)) by (rewrite EE; left; reflexivity). apply filter_In in I. destruct I as [I SP].
    apply same_path_true in SP. apply (NA a q prev I). apply path_applies; [apply W; rewrite !in_app_iff; auto|]. rewrite SP. exact M. }
  intros w. unfold find_translations. rewrite !find_paths_snd, !filter_map_comm. f_equal.
  apply paths_framed; [eapply shuffle_wf; [exact S|apply build_wf]|eapply shuffle_wf; [exact S'|apply build_wf]|exact ST|].
  intros [p t] [p' t'] Hy Hz Py Pz. cbn [fst snd] in *.
  apply find_paths_In in Hy, Hz; [|eapply shuffle_wf; [exact S|apply build_wf]..]. destruct Hy as [Sy My], Hz as [Sz Mz].
  assert (IF : forall p t, stored n' p t -> path_matches lower p (skipn q input) prev -> exists full a,
      in_force compat ctx d (l1 ++ l2) full a /\ applies lower ctx d a (skipn q input) prev /\ t = offer ctx d full a /\ p = ins_path ctx d a).
  { clear - W S. intros p t Hs Hm. apply (shuffle_stored _ _ S), build_stored in Hs. destruct Hs as (full & a & Hc & ->).
    assert (Ia : In a (filter (same_path ctx d p) (l1 ++ l2))) by (destruct Hc as (k1 & k2 & -> & _); apply in_elt).
    apply filter_In in Ia. destruct Ia as [Ia Ep]. apply same_path_true in Ep. subst p.
    assert (WL : forall b, In b (l1 ++ l2) -> well_oriented b) by (intros b Hb; apply W; rewrite !in_app_iff in *; tauto).
    exists full, a. split; [apply chosen_in_force; auto|]. split; [apply path_applies; auto|auto]. }
  destruct (IF p t Sy My) as (f & a & F1 & A1 & -> & ->). destruct (IF p' t' Sz Mz) as (g & b & F2 & A2 & -> & ->).
  apply (U q prev f a g b F1 A1 F2 A2). unfold weighs in Py, Pz. apply Nat.eqb_eq in Py, Pz. congruence.
Qed.
End Entries.
End Lookup.

(** ** Tables with and without the rule *)
Lemma last_some_skip {A} (f : rule -> option A) a r b : f r = None -> last_some (a ++ r :: b) f = last_some (a ++ b) f.
Proof. intros E. unfold last_some. rewrite !fold_left_app. cbn [fold_left]. rewrite E. reflexivity. Qed.
Lemma last_rule_skip (f : rule -> option str) a r b : f r = None -> last_rule (a ++ r :: b) f = last_rule (a ++ b) f.
Proof. intros E. unfold last_rule. apply last_some_skip. rewrite E. reflexivity. Qed.
Lemma flat_map_skip {A} (f : rule -> list A) a r b : f r = [] -> flat_map f (a ++ r :: b) = flat_map f (a ++ b).
Proof. intros E. rewrite !flat_map_app. cbn [flat_map]. rewrite E. reflexivity. Qed.
Lemma flat_map_split {A} (f : rule -> list A) a r b : flat_map f (a ++ r :: b) = flat_map f a ++ f r ++ flat_map f b.
Proof. rewrite flat_map_app. reflexivity. Qed.
Lemma flat_map_same {A B} (f g : A -> list B) l : (forall y, f y = g y) -> flat_map f l = flat_map g l.
Proof. intros E. induction l as [|y l IH]; [reflexivity|]. cbn. rewrite E, IH. reflexivity. Qed.
Lemma last_some_same {A} (f g : rule -> option A) l : (forall y, f y = g y) -> last_some l f = last_some l g.
Proof. intros E. unfold last_some. generalize (@None A). induction l as [|y l IH]; intros o; [reflexivity|]. cbn. rewrite E. apply IH. Qed.

Section Tables.
Variable is_alphabetic : char -> bool.
Variable compat : bool.
Variable read_dictionary : str -> tres hyph.
Variable d : direction.
Variable x : context.
Variable a b : list rule.
Variable r : rule.
Variable t : str.
Hypothesis T : translates r = Some t.
Hypothesis LQ : d = Forward \/ makes_letters is_alphabetic r = false.
Notation rules := (a ++ b).
Notation rules' := (a ++ r :: b).

Lemma scanner_same : build_scanner x rules' = build_scanner x rules.
Proof. unfold build_scanner, compbrl_triggers. rewrite flat_map_skip; [reflexivity|]. destruct r; try discriminate; reflexivity. Qed.
Lemma emph_same : build_emph x rules' = build_emph x rules.
Proof.
  unfold build_emph. f_equal. assert (EN : emph_name r = None) by (destruct r; try discriminate; reflexivity).
  assert (E : emph_names rules' = emph_names rules).
  { unfold emph_names. rewrite !fold_left_app. cbn [fold_left]. rewrite EN. reflexivity. }
  rewrite E. apply map_ext. intros name. unfold build_emph_class. rewrite !last_some_skip by (rewrite EN; reflexivity). reflexivity.
Qed.
Lemma mid_numeric_same : mid_numeric rules' = mid_numeric rules.
Proof. unfold mid_numeric. rewrite !flat_map_skip by (destruct r; try discriminate; reflexivity). reflexivity. Qed.
Lemma indicators_same o1 o2 : build_indicators compat x rules' o1 o2 = build_indicators compat x rules o1 o2.
Proof.
  unfold build_indicators, build_letter_ind, build_nocont_ind, contraction_trie, contractions, build_comp_ind, build_numeric_ind, build_caps_ind, extra_numeric.
  rewrite emph_same, mid_numeric_same.
  repeat rewrite last_rule_skip by (destruct r; try discriminate; reflexivity).
  repeat rewrite last_some_skip by (destruct r; try discriminate; reflexivity).
  repeat rewrite flat_map_skip by (destruct r; try discriminate; reflexivity). reflexivity.
Qed.
Lemma letter_dots_same : letter_dots d rules' = letter_dots d rules.
Proof. unfold letter_dots. destruct d; [reflexivity|]. apply flat_map_skip. destruct r; try discriminate; reflexivity. Qed.
Lemma is_letter_dots_same dots : is_letter_dots d rules' dots = is_letter_dots d rules dots.
Proof. unfold is_letter_dots. rewrite letter_dots_same. reflexivity. Qed.
Lemma backward_dots_same f : f r = None -> backward_dots d rules' f = backward_dots d rules f.
Proof.
  intros E. unfold backward_dots. destruct (is_backward d); [|reflexivity]. rewrite last_some_skip by (rewrite E; reflexivity).
  apply last_some_same. intros y. destruct (f y); [|reflexivity]. rewrite is_letter_dots_same. reflexivity.
Qed.
Lemma constrainers_same : build_constrainers is_alphabetic read_dictionary d x rules' = build_constrainers is_alphabetic read_dictionary d x rules.
Proof.
  unfold build_constrainers, build_numeric, build_caps, build_number, build_hyphen, build_punct, has_punct, extra_numeric.
  rewrite mid_numeric_same. rewrite !backward_dots_same by (destruct r; try discriminate; reflexivity).
  repeat rewrite last_some_skip by (destruct r; try discriminate; reflexivity).
  assert (EL : letter_cells is_alphabetic d x rules' = letter_cells is_alphabetic d x rules).
  { unfold letter_cells. destruct d; [reflexivity|]. cbn [is_backward]. f_equal. f_equal. apply flat_map_skip.
    destruct LQ as [X|X]; [discriminate|]. destruct r; try discriminate; try reflexivity. cbn in X. rewrite X. reflexivity. }
  rewrite EL. rewrite !existsb_app. cbn [existsb].
  assert (EP : forall o, (match r with RPrepunc chars _ _ | RPostpunc chars _ _ => forallb (cls_has (x_chars x) CPunctuation) chars | _ => false end || o)%bool = o)
    by (intros o; destruct r; try discriminate; reflexivity).
  rewrite EP. reflexivity.
Qed.
Lemma litdigits_same : litdigit_chars d rules' = litdigit_chars d rules.
Proof. unfold litdigit_chars. destruct d; [|reflexivity]. apply flat_map_skip. destruct r; try discriminate; reflexivity. Qed.
Lemma others_same y : other_characters d x rules' y = other_characters d x rules y.
Proof. destruct y; cbn [other_characters]; rewrite ?litdigits_same; reflexivity. Qed.
Lemma main_entries_split : exists l1 l2, main_entries d x rules = l1 ++ l2 /\
  main_entries d x rules' = l1 ++ (if is_nocross r then [] else word_entries x r) ++ l2.
Proof.
  assert (E : forall y, main_entries_of d x rules' y = main_entries_of d x rules y).
  { intros y. unfold main_entries_of, character_entries, indicator_entries. rewrite others_same. f_equal. f_equal. destruct y; try reflexivity; rewrite is_letter_dots_same; reflexivity. }
  exists (flat_map (fun r => backward_only d (character_entries first_characters r)) rules ++ flat_map (main_entries_of d x rules) a), (flat_map (main_entries_of d x rules) b).
  unfold main_entries. split; [rewrite <- app_assoc; f_equal; apply flat_map_app|].
  rewrite flat_map_skip by (unfold backward_only; destruct r; try discriminate; destruct (is_backward d); reflexivity).
  rewrite <- app_assoc. f_equal. rewrite (flat_map_same _ _ _ E), flat_map_split. f_equal. f_equal.
  unfold main_entries_of, backward_only. destruct r; try discriminate; destruct (is_backward d); reflexivity.
Qed.
Lemma nocross_entries_split : exists l1 l2, nocross_entries x rules = l1 ++ l2 /\
  nocross_entries x rules' = l1 ++ (if is_nocross r then word_entries x r else []) ++ l2.
Proof.
  exists (flat_map (fun r => if is_nocross r then word_entries x r else []) a), (flat_map (fun r => if is_nocross r then word_entries x r else []) b).
  unfold nocross_entries. split; [apply flat_map_app|apply flat_map_split].
Qed.
Lemma comp6_entries_split : exists l1 l2, comp6_entries x rules = l1 ++ l2 /\
  comp6_entries x rules' = l1 ++ comp6_entries_of x r ++ l2.
Proof.
  exists (flat_map (comp6_entries_of x) a), (flat_map (comp6_entries_of x) b).
  unfold comp6_entries. split; [apply flat_map_app|apply flat_map_split].
Qed.
Definition rule_entries : list ins_args := word_entries x r ++ comp6_entries_of x r.
Lemma chars_same c : character_lookup d x rules' compat c = character_lookup d x rules compat c.
Proof.
  unfold character_lookup. assert (E : character_table d x rules' = character_table d x rules); [|rewrite E; reflexivity].
  unfold character_table. destruct (is_backward d); [reflexivity|]. rewrite flat_map_skip by (destruct r; try discriminate; reflexivity). f_equal.
  assert (E : forall y, char_pieces (other_characters d x rules') y = char_pieces (other_characters d x rules) y) by (intros y; unfold char_pieces; rewrite others_same; reflexivity).
  rewrite (flat_map_same _ _ _ E). apply flat_map_skip. destruct r; try discriminate; reflexivity.
Qed.
Lemma digits_same : digit_table d rules' = digit_table d rules.
Proof.
  unfold digit_table. f_equal. rewrite (flat_map_same _ (digit_entries d rules)).
  - apply flat_map_skip. destruct r; try discriminate; reflexivity.
  - intros y. destruct y; try reflexivity; cbn [digit_entries]; rewrite is_letter_dots_same; reflexivity.
Qed.

Variable lower upper : char -> list char.
Variable sort : list event -> res (list event).
Hypothesis DR : dictionaries_read read_dictionary.
Hypothesis SR : sort_rearranges sort.
Notation untied := (untied compat (trie_ctx d x) d lower).
Lemma main_framed m m' input spans :
  main_built is_alphabetic compat read_dictionary d x rules m -> main_built is_alphabetic compat read_dictionary d x rules' m' ->
  untied (main_entries d x rules) input -> untied (nocross_entries x rules) input -> untied (comp6_entries x rules) input ->
  (forall e q prev, In e rule_entries -> ~ applies lower (trie_ctx d x) d e (skipn q input) prev) ->
  main_trace lower upper sort m input spans = main_trace lower upper sort m' input spans.
Proof.
  intros B1 B2 T1 T2 T3 NA. destruct B1 as [R1 I1 C1 S1]. destruct B2 as [R2 I2 C2 S2].
  rewrite scanner_same in S2. rewrite constrainers_same in C2.
  assert (I2' : indicators_built compat x rules (mt_indicators m')).
  { destruct I2 as (o1 & o2 & i0 & O1 & O2 & EB & R). rewrite indicators_same in EB. exists o1, o2, i0. auto. }
  unfold main_trace, enriched. rewrite S1, S2. destruct (match build_scanner x rules with Some k => enrich k input spans | None => Ok spans end) as [sp| |]; cbn [bind]; auto.
  rewrite <- (indications_same lower sort compat x rules _ _ input sp I1 I2').
  destruct (indications_of lower sort (mt_indicators m) input sp) as [ind| |] eqn:EI; cbn [bind]; auto.
  rewrite C1, C2. destruct (limits_of (build_constrainers is_alphabetic read_dictionary d x rules) input sp) as [lim| |]; cbn [bind]; auto.
  pose proof (compiled_ok compat read_dictionary d x _ lower _ R1) as OK1.
  pose proof (compiled_ok compat read_dictionary d x _ lower _ R2) as OK2.
  destruct R1 as (q1 & Q1 & A1 & A2 & A3 & E1 & E2 & E3 & E4 & E5 & E6 & E7).
  destruct R2 as (q2 & Q2 & B1 & B2 & B3 & F1 & F2 & F3 & F4 & F5 & F6 & F7).
  destruct (compile_spec _ _ _ _ _ _ Q1) as (J1 & J2 & J3 & J4 & J5 & J6 & J7 & J8 & J9 & J10).
  destruct (compile_spec _ _ _ _ _ _ Q2) as (K1 & K2 & K3 & K4 & K5 & K6 & K7 & K8 & K9 & K10).
  assert (IO : indications_ok ind).
  { assert (SO : sort_returns sort (emph_events (in_emph (mt_indicators m)) 0 input sp)).
    { unfold sort_returns. destruct (Nat.le_gt_cases (length (emph_events (in_emph (mt_indicators m)) 0 input sp)) 20) as [L|L]; [auto|].
      right. unfold indications_of, emph_precompute, event_sort in EI.
      destruct (Nat.leb_spec (length (emph_events (in_emph (mt_indicators m)) 0 input sp)) 20) as [L'|L']; [lia|].
      destruct (sort (emph_events (in_emph (mt_indicators m)) 0 input sp)) as [l'| |] eqn:El; try discriminate. exists l'. split; [reflexivity|].
      apply SR, El. }
    destruct (indications_spec compat x rules (mt_indicators m) lower sort input sp I1 SO) as (em & caps & ind' & _ & _ & E' & _ & _ & RS).
    rewrite EI in E'. injection E' as <-. intros l u Hl Hu. apply (rule_sign_fields rules). eapply RS; eauto. }
  apply run_same; auto.
  - rewrite E2, F2, J5, K5. symmetry. apply flat_map_skip. destruct r; try discriminate; reflexivity.
  - rewrite E3, F3, J6, K6. symmetry. apply flat_map_skip. destruct r; try discriminate; reflexivity.
  - congruence.
  - rewrite E4, F4, J7, K7. symmetry. apply digits_same.
  - intros c. rewrite E1, F1, J4, K4. symmetry. apply chars_same.
  - rewrite E5, F5, J8, K8. unfold undefined_dots. rewrite !fold_left_app. cbn [fold_left]. destruct r; try discriminate; reflexivity.
  - congruence.
  - destruct main_entries_split as (l1 & l2 & EL & EL'). rewrite EL in *. rewrite EL' in K1.
    eapply (find_framed lower compat (trie_ctx d x) d l1 (if is_nocross r then [] else word_entries x r) l2 input); [|intros e q prev He; apply NA; unfold rule_entries; revert He; destruct (is_nocross r); intros He; [destruct He|apply in_app_iff; auto]|exact J1|exact A1|exact K1|exact B1|exact T1].
    intros e He. rewrite <- EL' in He. apply (main_oriented d x rules' e He).
  - destruct nocross_entries_split as (l1 & l2 & EL & EL'). rewrite EL in *. rewrite EL' in K2.
    eapply (find_framed lower compat (trie_ctx d x) d l1 (if is_nocross r then word_entries x r else []) l2 input); [|intros e q prev He; apply NA; unfold rule_entries; revert He; destruct (is_nocross r); intros He; [apply in_app_iff; auto|destruct He]|exact J2|exact A2|exact K2|exact B2|exact T2].
    intros e He. rewrite <- EL' in He. apply (nocross_oriented x rules' e He).
  - destruct comp6_entries_split as (l1 & l2 & EL & EL'). rewrite EL in *. rewrite EL' in K3.
    eapply (find_framed lower compat (trie_ctx d x) d l1 (comp6_entries_of x r) l2 input); [|intros e q prev He; apply NA; apply in_app_iff; auto|exact J3|exact A3|exact K3|exact B3|exact T3].
    intros e He. rewrite <- EL' in He. apply (comp6_oriented x rules' e He).
Qed.
End Tables.

(** ** The context *)
Section Context.
Variable is_alphabetic : char -> bool.
Variable compat : bool.
Definition like (y z : context) : Prop := x_defs y = x_defs z /\ x_chars y = x_chars z /\ x_swaps y = x_swaps z.
Lemma like_refl y : like y y.
Proof. repeat split. Qed.
Lemma step1_like y z q : like y z -> like (context_step1 is_alphabetic compat y q) (context_step1 is_alphabetic compat z q).
Proof.
  destruct y as [d1 c1 o1 s1], z as [d2 c2 o2 s2]. unfold like. cbn [x_defs x_chars x_swaps]. intros (-> & -> & ->).
  destruct q; cbn [context_step1 define x_defs x_chars x_swaps]; auto. destruct (forallb is_alphabetic chars); auto.
Qed.
Lemma steps1_like l : forall y z, like y z -> like (fold_left (context_step1 is_alphabetic compat) l y) (fold_left (context_step1 is_alphabetic compat) l z).
Proof. induction l as [|q l IH]; intros y z H; cbn; [exact H|]. apply IH, step1_like, H. Qed.
Lemma step2_like y z q : like y z ->
  match context_step2 compat y q, context_step2 compat z q with
  | TOk y', TOk z' => like y' z' | TErr e, TErr e' => e = e' | TPanic, TPanic => True | _, _ => False
  end.
Proof.
  destruct y as [d1 c1 o1 s1], z as [d2 c2 o2 s2]. unfold like. cbn [x_defs x_chars x_swaps]. intros (-> & -> & ->).
  destruct q; cbn [context_step2 attribute_chars add_swap x_defs x_chars x_swaps]; auto.
  destruct (defs_get d2 base); cbn; auto. destruct compat; cbn; auto.
Qed.
Lemma fold2_like l : forall y z y' z', like y z -> context_fold2 compat y l = TOk y' -> context_fold2 compat z l = TOk z' -> like y' z'.
Proof.
  induction l as [|q l IH]; intros y z y' z' H E1 E2; cbn [context_fold2] in *; [congruence|].
  pose proof (step2_like y z q H) as X. destruct (context_step2 compat y q), (context_step2 compat z q); try contradiction; try discriminate.
  cbn [tbind] in *. eapply IH; eauto.
Qed.
Lemma fold2_skip r t l1 : translates r = Some t -> forall l2 y, context_fold2 compat y (l1 ++ r :: l2) = context_fold2 compat y (l1 ++ l2).
Proof.
  intros T. induction l1 as [|q l1 IH]; intros l2 y; cbn [app context_fold2].
  - destruct r; try discriminate; reflexivity.
  - destruct (context_step2 compat y q); cbn [tbind]; auto.
Qed.
Lemma context_framed a r b t y z : translates r = Some t ->
  context_compile is_alphabetic compat (a ++ b) = TOk y -> context_compile is_alphabetic compat (a ++ r :: b) = TOk z -> like y z.
Proof.
  intros T. unfold context_compile. rewrite (fold2_skip r t a T b). apply fold2_like.
  rewrite !fold_left_app. cbn [fold_left]. apply steps1_like.
  set (w := fold_left (context_step1 is_alphabetic compat) a context_empty). clearbody w. destruct r; try discriminate; try apply like_refl.
  cbn [context_step1]. destruct (forallb is_alphabetic chars); repeat split.
Qed.
Lemma context_quiet a r b t : translates r = Some t -> makes_letters is_alphabetic r = false ->
  context_compile is_alphabetic compat (a ++ r :: b) = context_compile is_alphabetic compat (a ++ b).
Proof.
  intros T Q. unfold context_compile. rewrite (fold2_skip r t a T b). rewrite !fold_left_app. cbn [fold_left].
  destruct r; try discriminate; try reflexivity. cbn [makes_letters] in Q. cbn [context_step1]. rewrite Q. reflexivity.
Qed.
End Context.

(** Forward the main pass does not look at the classes of cells. *)
Lemma main_built_like is_alphabetic compat read_dictionary y z rules m : like y z ->
  main_built is_alphabetic compat read_dictionary Forward y rules m -> main_built is_alphabetic compat read_dictionary Forward z rules m.
Proof.
  destruct y as [d1 c1 o1 s1], z as [d2 c2 o2 s2]. unfold like. cbn [x_defs x_chars x_swaps]. intros (-> & -> & ->) [R I C S].
  constructor; assumption.
Qed.
Lemma main_built_like' is_alphabetic compat read_dictionary d y z rules m : d = Forward -> like y z ->
  main_built is_alphabetic compat read_dictionary d y rules m -> main_built is_alphabetic compat read_dictionary d z rules m.
Proof. intros ->. apply main_built_like. Qed.
Lemma multipass_like l d st y z : st = Pre \/ st = Main -> like y z -> multipass_compile l d st y = multipass_compile l d st z.
Proof.
  destruct y as [d1 c1 o1 s1], z as [d2 c2 o2 s2]. unfold like. cbn [x_defs x_chars x_swaps]. intros ST (-> & -> & ->).
  assert (CI : forall test action o, context_insert (mk_context d2 c2 o1 s2) test action o st = context_insert (mk_context d2 c2 o2 s2) test action o st)
    by (destruct ST as [->| ->]; reflexivity).
  induction l as [|q l IH]; [reflexivity|]. destruct q; cbn [multipass_compile]; rewrite ?CI, ?IH; reflexivity.
Qed.
Lemma matches_occurs lower t input rest : text_matches lower t input rest -> exists here, input = here ++ rest /\ Forall2 (fun x c => lower c = [x]) t here.
Proof.
  induction 1 as [input|x0 from c input rest E M (here & -> & F)]; [exists []; auto|]. exists (c :: here). split; [reflexivity|]. constructor; auto.
Qed.
Lemma entry_of x r t e : translates r = Some t -> In e (rule_entries x r) ->
  i_from e = t /\ braille_to_unicode (x_defs x) (translation_of r) t = TOk (i_to e).
Proof.
  intros T I. unfold rule_entries, word_entries in I. apply in_app_iff in I.
  assert (A : forall A (u : tres A) (l : A -> list ins_args), In e match (tdo v <- u; TOk (l v)) with TOk k => k | _ => [] end -> exists v, u = TOk v /\ In e (l v)).
  { intros A u l H. destruct u; try destruct H. eauto. }
  destruct r; try discriminate; injection T as <-; cbn [word_insertions comp6_entries_of translation_of] in *;
    (destruct I as [I|I]; [|try (destruct I; fail)]);
    try (apply A in I; destruct I as (v & E & I)); unfold dots_of in *;
    repeat (destruct I as [<-|I]; [split; [reflexivity|try exact E; try reflexivity]|]); try (destruct I; fail).
  destruct (braille_to_unicode (x_defs x) dots chars); try destruct I as [<-|[]]; try destruct I. split; reflexivity.
Qed.
Lemma entries_absent lower d x r t text e q prev : translates r = Some t -> absent lower d x r text -> In e (rule_entries x r) ->
  ~ applies lower (trie_ctx d x) d e (skipn q text) prev.
Proof.
  intros T AB I (rest & M & _). destruct (entry_of x r t e T I) as [E1 E2]. specialize (AB t T).
  destruct (matches_occurs _ _ _ _ M) as (here & E & F).
  assert (O : occurs lower (sought d e) text).
  { exists (firstn q text), here, rest. split; [|exact F]. rewrite <- E. symmetry. apply firstn_skipn. }
  destruct d; cbn [sought] in O.
  - rewrite E1 in O. exact (AB O).
  - exact (AB _ E2 O).
Qed.
