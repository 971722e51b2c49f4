(** C11: words marked by compbrl.  C41: the restrictions of positions. *)
From Coq Require Import Permutation Sorted.
From Verif Require Import Base BaseProofs RuleModel TranslationModel TranslationProofs TableModel TableProofs RegexpModel
  TrieModel TrieProofs PropTrie HyphenationModel LoopModel CompileModel CompileSpec
  CompileProofs MainTable ConstraintModel ConstraintSpec ConstraintProofs IndicatorModel IndicatorProofs
  CapsSpec CapsProofs CapsFacts EmphSpec EmphProofs MainSpec TraceSpec MainPass StepFacts TraceProofs SignSpec SignProofs SetupSpec SetupProofs PropMain PropMainExamples.

Section Main.
Variable is_alphabetic : char -> bool.
Variable compat : bool.
Variable read_dictionary : str -> tres hyph.
Variable d : direction.
Variable x : context.
Variable rules : list rule.
Variable m : main_table.
Hypothesis B : main_built is_alphabetic compat read_dictionary d x rules m.
Hypothesis DR : dictionaries_read read_dictionary.

(** ** C11 *)
(** Unless a compbrl text starts at a space of the input, the scan ends, keeps the spans of
    the caller, and adds exactly the words with a compbrl text in them, once each. *)
Theorem C11_compbrl_words : forall input spans,
  (forall p, compbrl_at rules input p -> ~ is_space x input p) ->
  exists added, enriched m input spans = Ok (spans ++ added) /\ NoDup added /\
    (forall s, In s spans -> ~ In s added) /\
    forall s, In s (spans ++ added) <-> In s spans \/ compbrl_word x rules input s.
Proof.
  intros input spans N. destruct (marked_ok _ _ _ _ _ _ _ B input spans N) as (sp & E & added & -> & ND & A).
  exists added. split; [exact E|]. split; [exact ND|]. split; [intros s H I; apply A in I; tauto|]. intros s. rewrite in_app_iff, A.
  destruct (existsb (span_eqb s) spans) eqn:X.
  - apply existsb_exists in X. destruct X as (s' & I & X). apply span_eqb_spec in X. subst s'. tauto.
  - assert (NI : ~ In s spans) by (intros I; assert (Y : existsb (span_eqb s) spans = true) by (apply existsb_exists; exists s; split; [exact I|apply span_eqb_spec; reflexivity]); congruence). tauto.
Qed.
(** If one does, the scan never ends. *)
Theorem C11_compbrl_at_a_space_never_ends : forall input spans p,
  compbrl_at rules input p -> is_space x input p ->
  exists k, mt_scanner m = Some k /\ forall fuel, scan_loop k input fuel 0 spans = OutOfFuel.
Proof.
  intros input spans p T S. destruct (mt_scanner m) as [k|] eqn:EK; [|destruct (no_scanner _ _ _ _ _ _ _ B input p EK T)].
  exists k. split; [reflexivity|]. intros fuel. apply scan_diverges. exists p. split; [lia|]. split; [eapply trigger_iff; eauto|eapply space_iff; eauto].
Qed.
(** and a word marked by compbrl is translated as computer braille: only comp6 rules, nocross
    rules and the translations of single characters are used in it. *)
Theorem C11_compbrl_words_are_computer_braille : forall lower upper sort input spans out a t b s,
  sort_rearranges sort -> main_trace lower upper sort m input spans = Ok out -> out = a ++ t :: b -> is_sign t = false ->
  compbrl_word x rules input s -> sp_start s <= position a < sp_end s ->
  (exists r, In r rules /\ r_origin t = Some r /\ (is_comp6 r = true \/ is_nocross r = true)) \/
  r_length t = 1 /\ (r_origin t = None \/
    exists r c, In r rules /\ r_origin t = Some r /\ defines_character d x rules r c /\ nth_error input (position a) = Some c).
Proof.
  intros lower upper sort input spans out a t b s SR E Eo S W L.
  destruct (C10_computer_braille _ _ _ _ _ _ lower upper sort m B DR SR input spans out a t b E Eo S) as [C _].
  destruct C as [C|[C|C]]; [right; eauto|auto|auto|]. exfalso. destruct W as (_ & (_ & W & _) & _). lia.
Qed.

(** ** C41 *)
(** the restriction sources one at a time *)
Definition sources_alone (k : constrainers) : list constrainers :=
  [mk_constrainers (kc_numeric k) None None None None; mk_constrainers None (kc_caps k) None None None;
   mk_constrainers None None (kc_number k) None None; mk_constrainers None None None (kc_hyphen k) None;
   mk_constrainers None None None None (kc_punct k)].
Definition all_flags : list (flags -> bool) :=
  [k_dont_contract; k_comp6; k_uppercase; k_titlecase; k_digit; k_break; k_prepunc; k_postpunc].
Lemma alone_ok k k' : cells_ok k -> In k' (sources_alone k) -> cells_ok k'.
Proof.
  intros [C1 C2 C3 C4 C5] H. repeat (destruct H as [<-|H]; [constructor; cbn [kc_numeric kc_caps kc_number kc_hyphen kc_punct]; try discriminate; eauto|]). destruct H.
Qed.
Lemma union k chars spans lim : cells_ok k -> limits_of k chars spans = Ok lim -> forall f p, In f all_flags ->
  (flag_at f lim p = true <-> exists k' lim', In k' (sources_alone k) /\ limits_of k' chars spans = Ok lim' /\ flag_at f lim' p = true).
Proof.
  intros C E. destruct (limits_spec k chars spans C) as (lim0 & E0 & R). rewrite E in E0. injection E0 as <-.
  assert (AL : forall k', In k' (sources_alone k) -> exists lim', limits_of k' chars spans = Ok lim' /\ restrictions k' chars spans lim').
  { intros k' H. apply limits_spec. eapply alone_ok; eauto. }
  intros f p Hf.
  assert (BACK : forall lim' k', In k' (sources_alone k) -> restrictions k' chars spans lim' -> flag_at f lim' p = true -> flag_at f lim p = true).
  { intros lim' k' Hk R'. destruct R as [R1 R2 R3 R4 R5 R6 R7 R8], R' as [S1 S2 S3 S4 S5 S6 S7 S8].
    assert (SUB : (forall u, kc_numeric k' = Some u -> kc_numeric k = Some u) /\ (forall u, kc_caps k' = Some u -> kc_caps k = Some u) /\
      (forall u, kc_number k' = Some u -> kc_number k = Some u) /\ (forall u, kc_hyphen k' = Some u -> kc_hyphen k = Some u) /\ (forall u, kc_punct k' = Some u -> kc_punct k = Some u)).
    { repeat (destruct Hk as [<-|Hk]; [cbn; repeat split; intros u; try discriminate; auto|]). destruct Hk. }
    destruct SUB as (B1 & B2 & B3 & B4 & B5).
    destruct Hf as [<-|[<-|[<-|[<-|[<-|[<-|[<-|[<-|[]]]]]]]]].
    - rewrite S1, R1. intros (u & H & X). eauto.
    - rewrite S2, R2. auto.
    - rewrite S3, R3. intros (u & ts & H & X). eauto.
    - rewrite S4, R4. intros (u & ts & H & X). eauto.
    - rewrite S5, R5. intros (u & ts & H & X). eauto.
    - rewrite S6, R6. intros (u & ts & H & X). eauto.
    - rewrite S7, R7. intros (u & H & X). eauto.
    - rewrite S8, R8. intros (u & H & X). eauto. }
  split.
  - intros H. assert (K : exists k', In k' (sources_alone k) /\ forall lim', restrictions k' chars spans lim' -> flag_at f lim' p = true).
    { destruct R as [R1 R2 R3 R4 R5 R6 R7 R8].
      destruct Hf as [<-|[<-|[<-|[<-|[<-|[<-|[<-|[<-|[]]]]]]]]].
      - eexists. split; [left; reflexivity|]. intros lim' RL. apply (rs_number _ _ _ _ RL). cbn. apply R1, H.
      - eexists. split; [left; reflexivity|]. intros lim' RL. apply (rs_comp _ _ _ _ RL). cbn. apply R2, H.
      - eexists. split; [right; left; reflexivity|]. intros lim' RL. apply (rs_upper _ _ _ _ RL). cbn. apply R3, H.
      - eexists. split; [right; left; reflexivity|]. intros lim' RL. apply (rs_title _ _ _ _ RL). cbn. apply R4, H.
      - eexists. split; [right; right; left; reflexivity|]. intros lim' RL. apply (rs_digit _ _ _ _ RL). cbn. apply R5, H.
      - eexists. split; [right; right; right; left; reflexivity|]. intros lim' RL. apply (rs_break _ _ _ _ RL). cbn. apply R6, H.
      - eexists. split; [right; right; right; right; left; reflexivity|]. intros lim' RL. apply (rs_prepunc _ _ _ _ RL). cbn. apply R7, H.
      - eexists. split; [right; right; right; right; left; reflexivity|]. intros lim' RL. apply (rs_postpunc _ _ _ _ RL). cbn. apply R8, H. }
    destruct K as (k' & Hk & K). destruct (AL k' Hk) as (lim' & EL & RL). exists k', lim'. split; [exact Hk|]. split; [exact EL|]. apply K, RL.
  - intros (k' & lim' & Hk & EL & H). destruct (AL k' Hk) as (lim1 & EL' & RL). rewrite EL in EL'. injection EL' as <-. eapply BACK; eauto.
Qed.
(** For every input and list of spans the restrictions are computed without error; a
    position carries a restriction iff one of the sources, on its own, puts it there; and
    each restriction stands where it is specified to ([table_restricts]), never outside the
    text. *)
Theorem C41_restrictions_are_the_union : forall input spans, exists lim,
  limits_of (mt_constrainers m) input spans = Ok lim /\
  table_restricts is_alphabetic read_dictionary d x rules input spans lim /\
  (forall f p, In f all_flags -> (flag_at f lim p = true <->
     exists k' lim', In k' (sources_alone (mt_constrainers m)) /\ limits_of k' input spans = Ok lim' /\ flag_at f lim' p = true)) /\
  (forall f p, length input <= p -> flag_at f lim p = false).
Proof.
  intros input spans.
  assert (C : cells_ok (mt_constrainers m)) by (rewrite (mb_constrainers _ _ _ _ _ _ _ B); exact (built_cells _ _ _ _ _ _ _ DR (mb_rules _ _ _ _ _ _ _ B))).
  destruct (limits_spec _ input spans C) as (lim & E & R). exists lim. split; [exact E|]. split; [eapply table_restrictions; [apply (mb_rules _ _ _ _ _ _ _ B)|rewrite <- (mb_constrainers _ _ _ _ _ _ _ B); exact R]|]. split.
  - intros f p Hf. apply union; assumption.
  - intros f p L. unfold limits_of in E. destruct (optional (kc_caps (mt_constrainers m)) _ _) as [cp| |]; try discriminate. cbn [bind] in E.
    destruct (optional (kc_number (mt_constrainers m)) _ _) as [nb| |]; try discriminate. cbn [bind] in E.
    destruct (optional (kc_hyphen (mt_constrainers m)) _ _) as [hy| |]; try discriminate. cbn [bind] in E. injection E as <-.
    unfold flag_at. rewrite (proj2 (nth_error_None _ _)); [reflexivity|]. rewrite map_length, seq_length. exact L.
Qed.
End Main.
Print Assumptions C11_compbrl_words.
Print Assumptions C11_compbrl_at_a_space_never_ends.
Print Assumptions C11_compbrl_words_are_computer_braille.
Print Assumptions C41_restrictions_are_the_union.

(** ** Examples *)
Definition ex_www : list rule := ex_letters ++ [RCompbrl (lit "bc") K; RBegcomp (b 40) K; REndcomp (b 41) K; always "ab" (b 5)].
Example ex_compbrl : ex_run Forward ex_www (lit "ab abcd ab") [] =
  Some [(lit "ab", b 5); (lit " ", b 0); ([], b 40); (lit "a", b 1); (lit "b", b 3); (lit "c", b 9); (lit "d", b 25); ([], b 41); (lit " ", b 0); (lit "ab", b 5)].
Proof. vm_compute. reflexivity. Qed.
(** both a number and a computer braille span restrict position 1 *)
Example ex_restricted : exists x m, main_built ex_alpha true ex_dictionary Forward x ex_letters m /\
  exists lim, limits_of (mt_constrainers m) (lit "112") [mk_span computer_braille 1 7] = Ok lim /\
    map (fun p => (flag_at k_dont_contract lim p, flag_at k_comp6 lim p)) [0; 1; 2; 3] = [(true, false); (true, true); (true, true); (false, false)].
Proof.
  destruct (ex_compile Forward ex_letters) as [[x m]| |] eqn:E; [|vm_compute in E; discriminate E..].
  exists x, m. split; [eapply ex_built, E|].
  assert (Y : match ex_compile Forward ex_letters with
              | TOk (_, m) => match limits_of (mt_constrainers m) (lit "112") [mk_span computer_braille 1 7] with
                              | Ok lim => Some (map (fun p => (flag_at k_dont_contract lim p, flag_at k_comp6 lim p)) [0; 1; 2; 3]) | _ => None end
              | _ => None end = Some [(true, false); (true, true); (true, true); (false, false)]) by (vm_compute; reflexivity).
  rewrite E in Y. destruct (limits_of (mt_constrainers m) (lit "112") [mk_span computer_braille 1 7]) as [lim| |]; try discriminate.
  exists lim. split; [reflexivity|]. clear E. apply (f_equal (fun o => match o with Some l => l | None => [] end)) in Y. exact Y.
Qed.
