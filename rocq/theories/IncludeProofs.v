(** Expanding includes: it ends, its rules are the substitution, its errors are those met. *)
From Coq Require Import List.
From Verif Require Import Base BaseProofs RuleModel ParserModel IncludeModel IncludeSpec.

Section Includes.
Context (ws : char -> bool) (fs : file_system).

(** chains from the front *)
Inductive via : list str -> str -> list str -> str -> Prop :=
| via_here chain f : via chain f chain f
| via_step chain f path canonical rules n g chain' h :
    located fs f path canonical -> contents ws fs path rules -> In (n, RInclude g) rules -> is_dic fs g = false ->
    via (chain ++ [canonical]) g chain' h -> via chain f chain' h.
Lemma via_snoc chain f chain' g path canonical rules n h : via chain f chain' g -> located fs g path canonical -> contents ws fs path rules ->
  In (n, RInclude h) rules -> is_dic fs h = false -> via chain f (chain' ++ [canonical]) h.
Proof.
  induction 1; intros L C I D.
  - eapply via_step; eauto. constructor.
  - eapply via_step; eauto.
Qed.
Lemma reached_via file chain g : reached ws fs file chain g -> via [] file chain g.
Proof. induction 1; [constructor|]. eapply via_snoc; eauto. Qed.
Lemma via_reached file chain f chain' g : via chain f chain' g -> reached ws fs file chain f -> reached ws fs file chain' g.
Proof. induction 1; intros R; [exact R|]. apply IHvia. econstructor; eauto. Qed.
Lemma reached_iff file chain g : reached ws fs file chain g <-> via [] file chain g.
Proof. split; [apply reached_via|]. intros V. eapply via_reached; [exact V|constructor]. Qed.
Lemma via_prefix chain f chain' g : via chain f chain' g -> exists more, chain' = chain ++ more.
Proof.
  induction 1 as [|chain f path canonical rules n g chain' h L C I D V (more & ->)]; [exists []; symmetry; apply app_nil_r|].
  exists (canonical :: more). rewrite <- app_assoc. reflexivity.
Qed.

Lemma NoDup_snoc {A} (l : list A) x : NoDup (l ++ [x]) <-> NoDup l /\ ~ In x l.
Proof.
  split.
  - intros H. split; [apply NoDup_remove_1 in H; rewrite app_nil_r in H; exact H|]. apply NoDup_remove_2 in H. rewrite app_nil_r in H. exact H.
  - intros [H1 H2]. rewrite <- (rev_involutive (l ++ [x])), rev_app_distr. apply NoDup_rev. cbn. constructor; [rewrite <- in_rev; exact H2|apply NoDup_rev, H1].
Qed.
Lemma NoDup_prefix {A} (l m : list A) : NoDup (l ++ m) -> NoDup l.
Proof. induction l as [|x l IH]; [constructor|]. cbn. inversion 1; subst. constructor; [rewrite in_app_iff in *; tauto|auto]. Qed.
Lemma followed_snoc chain c : followed (chain ++ [c]) <-> followed chain /\ length chain < 64 /\ ~ In c chain.
Proof. unfold followed. rewrite NoDup_snoc, app_length. cbn. split; [intros [[? ?] ?]; repeat split; auto; lia|intros [[? ?] [? ?]]; repeat split; auto; lia]. Qed.
Lemma followed_prefix chain more : followed (chain ++ more) -> followed chain.
Proof. intros [N L]. split; [eapply NoDup_prefix, N|]. rewrite app_length in L. lia. Qed.

(** the errors met from here *)
Definition met (chain : list str) (f : str) (e : table_error) : Prop :=
  exists chain' g, via chain f chain' g /\ followed chain' /\ wrong ws fs chain' g e.
Definition errors_of (r : table_result) : list table_error := match r with inl _ => [] | inr es => es end.

Lemma located_one f p c p' c' : located fs f p c -> located fs f p' c' -> p' = p /\ c' = c.
Proof. intros [H1 H2] [H3 H4]. rewrite H1 in H3. injection H3 as ->. rewrite H2 in H4. injection H4 as ->. auto. Qed.
Lemma contents_one p r r' : contents ws fs p r -> contents ws fs p r' -> r' = r.
Proof. intros (t & H1 & H2) (t' & H3 & H4). rewrite H1 in H3. injection H3 as ->. congruence. Qed.
(** nothing is met beyond a table that is not entered *)
Lemma met_here chain f e : (forall p c, located fs f p c -> ~ (length chain < 64 /\ ~ In c chain) \/ forall r, ~ contents ws fs p r) ->
  met chain f e <-> followed chain /\ wrong ws fs chain f e.
Proof.
  intros H. split.
  - intros (chain' & g & V & F & W). inversion V as [|? ? p c rules n g' ? ? L C I D V']; subst; [auto|]. exfalso.
    destruct (H p c L) as [N|N]; [|apply (N _ C)]. apply N. destruct (via_prefix _ _ _ _ V') as (more & ->).
    apply followed_prefix in F. apply followed_snoc in F. tauto.
  - intros [F W]. exists chain, f. split; [constructor|auto].
Qed.
(** what is met in a table that is entered *)
Lemma met_inside chain f p c rules e : followed chain -> located fs f p c -> length chain < 64 -> ~ In c chain -> contents ws fs p rules ->
  met chain f e <-> exists n g, In (n, RInclude g) rules /\
    (if is_dic fs g then find_file fs g = None /\ e = THyphenationNotFound g else met (chain ++ [c]) g e).
Proof.
  intros FO L LN NI C. split.
  - intros (chain' & g & V & F & W). inversion V as [|? ? p' c' rules' n g' ? ? L' C' I D V']; subst.
    + inversion W; subst; try (match goal with L' : located fs g _ _ |- _ => destruct (located_one _ _ _ _ _ L L'); subst end); try contradiction.
      * destruct L. congruence.
      * destruct L as [L1 L2]. rewrite L1 in *. match goal with E : Some _ = Some _ |- _ => injection E as -> end. congruence.
      * lia.
      * destruct C as (t & C1 & _). congruence.
      * destruct C as (t & C1 & C2). match goal with E : read_to_string fs p = Some _ |- _ => rewrite C1 in E; injection E as -> end. congruence.
      * match goal with E : contents ws fs p ?r |- _ => pose proof (contents_one _ _ _ C E); subst r end.
        exists n, file. split; [assumption|]. match goal with E : is_dic fs file = true |- _ => rewrite E end. auto.
    + destruct (located_one _ _ _ _ _ L L'). subst. pose proof (contents_one _ _ _ C C'). subst. exists n, g'. split; [exact I|]. rewrite D. exists chain', g. auto.
  - intros (n & g & I & Q). destruct (is_dic fs g) eqn:D.
    + destruct Q as [Q ->]. exists chain, f. split; [constructor|]. split; [exact FO|]. eapply wr_dictionary; eauto.
    + destruct Q as (chain' & h & V & F & W). exists chain', h. split; [|auto]. eapply via_step; eauto.
Qed.

Lemma each_some {A B} (f : A -> option B) l : (forall a, In a l -> f a <> None) -> exists bs, each f l = Some bs /\ Forall2 (fun a b => f a = Some b) l bs.
Proof.
  induction l as [|a l IH]; intros H; [exists []; split; [reflexivity|constructor]|].
  destruct IH as (bs & E & F); [intros a' I; apply H; right; exact I|]. destruct (f a) as [b|] eqn:Fa; [|destruct (H a (or_introl eq_refl) Fa)].
  exists (b :: bs). cbn [each]. rewrite Fa, E. split; [reflexivity|constructor; assumption].
Qed.
Lemma partition_errors l : errors_of (partition_results l) = all_errors l.
Proof. unfold partition_results. destruct (all_errors l) eqn:E; reflexivity. Qed.
Lemma partition_ok l out : partition_results l = inl out <-> all_errors l = [] /\ out = all_rules l.
Proof. unfold partition_results. destruct (all_errors l); split; [intros [= <-]; auto|intros [_ ->]; reflexivity|discriminate|intros [H _]; discriminate]. Qed.
Lemma partition_bad l es : partition_results l = inr es -> es <> [].
Proof. unfold partition_results. destruct (all_errors l); [discriminate|intros [= <-]; discriminate]. Qed.

(** ** A list of rules *)
Section List.
Context (go : str -> option table_result) (M : str -> table_error -> Prop) (path : option str).
Definition go_ok (f : str) : Prop := exists res, go f = Some res /\ (forall e, In e (errors_of res) <-> M f e) /\
  match res with inl out => expands ws fs f out | inr es => es <> [] end.
Lemma expand_list rules : (forall n g, In (n, RInclude g) rules -> is_dic fs g = false -> go_ok g) ->
  exists res, expand_includes fs go (map (fun x => mk_anchored (snd x) path (fst x)) rules) = Some res /\
    (forall e, In e (errors_of res) <-> exists n g, In (n, RInclude g) rules /\
        (if is_dic fs g then find_file fs g = None /\ e = THyphenationNotFound g else M g e)) /\
    match res with inl out => substituted ws fs path rules out | inr es => es <> [] end.
Proof.
  intros H.
  enough (Q : exists l, each (expand_include fs go) (map (fun x => mk_anchored (snd x) path (fst x)) rules) = Some l /\
    (forall e, In e (all_errors l) <-> exists n g, In (n, RInclude g) rules /\
        (if is_dic fs g then find_file fs g = None /\ e = THyphenationNotFound g else M g e)) /\
    (all_errors l = [] -> substituted ws fs path rules (all_rules l))).
  { destruct Q as (l & E & Er & Su). exists (partition_results l). unfold expand_includes. rewrite E. split; [reflexivity|].
    split; [intros e; rewrite partition_errors; apply Er|]. destruct (partition_results l) as [out|es] eqn:P.
    - apply partition_ok in P. destruct P as [P ->]. apply Su, P.
    - eapply partition_bad, P. }
  induction rules as [|[n r] rules IH]; cbn [map each].
  - exists []. split; [reflexivity|]. split; [|intros _; constructor]. intros e. split; [intros []|intros (n & g & [] & _)].
  - destruct IH as (l & E & Er & Su); [intros n' g' I D; apply (H n' g'); [right; exact I|exact D]|]. rewrite E. cbn [fst snd].
    unfold expand_include at 1. cbn [a_rule a_path a_line].
    assert (PLAIN : (forall g, r <> RInclude g) -> expand_include fs go (mk_anchored r path n) = Some (inl [mk_anchored r path n]) ->
      exists l0 : list table_result,
        match Some (inl [mk_anchored r path n] : table_result) with Some b => Some (b :: l) | None => None end = Some l0 /\
        (forall e, In e (all_errors l0) <-> exists n0 g, In (n0, RInclude g) ((n, r) :: rules) /\
          (if is_dic fs g then find_file fs g = None /\ e = THyphenationNotFound g else M g e)) /\
        (all_errors l0 = [] -> substituted ws fs path ((n, r) :: rules) (all_rules l0))).
    { intros NI _. exists (inl [mk_anchored r path n] :: l). split; [reflexivity|]. cbn [all_errors all_rules app]. split.
      - intros e. rewrite Er. split; [intros (n' & g & I & Q); exists n', g; split; [right; exact I|exact Q]|].
        intros (n' & g & [I|I] & Q); [injection I as _ I; destruct (NI g I)|]. exists n', g. auto.
      - intros A. apply su_rule; [exact NI|apply Su, A]. }
    destruct r; try (apply PLAIN; [intros g; discriminate|reflexivity]). clear PLAIN.
    destruct (is_dic fs file) eqn:D.
    + destruct (find_file fs file) as [dictionary|] eqn:FF.
      * exists (inl [mk_anchored (RIncludeHyphenation dictionary) path n] :: l). split; [reflexivity|]. cbn [all_errors all_rules app]. split.
        -- intros e. rewrite Er. split; [intros (n' & g & I & Q); exists n', g; split; [right; exact I|exact Q]|].
           intros (n' & g & [I|I] & Q); [injection I as <- <-; rewrite D in Q; destruct Q; congruence|]. exists n', g. auto.
        -- intros A. apply su_dic; auto.
      * exists (inr [THyphenationNotFound file] :: l). split; [reflexivity|]. cbn [all_errors all_rules app]. split; [|discriminate].
        intros e. cbn [In]. rewrite Er. split.
        -- intros [<-|(n' & g & I & Q)]; [exists n, file; split; [left; reflexivity|rewrite D; auto]|exists n', g; split; [right; exact I|exact Q]].
        -- intros (n' & g & [I|I] & Q); [injection I as <- <-; rewrite D in Q; destruct Q as [_ ->]; left; reflexivity|right; exists n', g; auto].
    + destruct (H n file (or_introl eq_refl) D) as (res & G & Ge & Gr). rewrite G. exists (res :: l). split; [reflexivity|]. split.
      * intros e. assert (AE : all_errors (res :: l) = errors_of res ++ all_errors l) by (destruct res; reflexivity).
        rewrite AE, in_app_iff, Ge, Er. split.
        -- intros [Q|(n' & g & I & Q)]; [exists n, file; split; [left; reflexivity|rewrite D; exact Q]|exists n', g; split; [right; exact I|exact Q]].
        -- intros (n' & g & [I|I] & Q); [injection I as <- <-; rewrite D in Q; left; exact Q|right; exists n', g; auto].
      * destruct res as [out|es]; cbn [all_errors all_rules]; intros A; [|apply app_eq_nil in A; destruct A; contradiction].
        apply su_include; auto.
Qed.
End List.

(** ** A file *)
Lemma existsb_chain c chain : existsb (str_eqb c) chain = true <-> In c chain.
Proof.
  rewrite existsb_exists. split; [intros (x & I & E); apply str_eqb_eq in E; subst; exact I|]. intros I. exists c. split; [exact I|apply str_eqb_eq; reflexivity].
Qed.
Theorem expanded_ok : forall fuel chain f, followed chain -> 65 - length chain <= fuel ->
  go_ok (fun f => table_expanded_with ws fs fuel f chain) (met chain) f.
Proof.
  induction fuel as [|fuel IH]; intros chain f F L; [destruct F; lia|]. unfold go_ok. cbn [table_expanded_with].
  assert (ONE : forall x, (forall e, met chain f e <-> e = x) ->
    exists res, Some (inr [x] : table_result) = Some res /\ (forall e, In e (errors_of res) <-> met chain f e) /\ match res with inl out => expands ws fs f out | inr es => es <> [] end).
  { intros x H. exists (inr [x]). split; [reflexivity|]. split; [|discriminate]. intros e. rewrite H. cbn. split; [intros [<-|[]]; reflexivity|intros ->; left; reflexivity]. }
  destruct (find_file fs f) as [p|] eqn:FF.
  2:{ apply ONE. intros e. rewrite met_here; [|intros p c [Q _]; congruence]. split.
      - intros [_ W]. inversion W; subst; try reflexivity; try congruence; match goal with Q : located fs f _ _ |- _ => destruct Q; congruence end.
      - intros ->. split; [exact F|constructor; exact FF]. }
  destruct (canonicalize fs p) as [c|] eqn:CC.
  2:{ apply ONE. intros e. rewrite met_here; [|intros p' c [Q1 Q2]; congruence]. split.
      - intros [_ W]. inversion W; subst; try reflexivity; try congruence; match goal with Q : located fs f _ _ |- _ => destruct Q; congruence end.
      - intros ->. split; [exact F|econstructor; eassumption]. }
  assert (LO : located fs f p c) by (split; assumption).
  unfold max_include_depth. destruct (Nat.leb_spec 64 (length chain)) as [DE|DE].
  { apply ONE. intros e. rewrite met_here; [|intros p' c' LO'; left; lia]. split.
    - intros [_ W]. inversion W; subst; try reflexivity; try lia; try congruence.
    - intros ->. split; [exact F|econstructor; eassumption]. }
  destruct (existsb (str_eqb c) chain) eqn:CI.
  { apply existsb_chain in CI. apply ONE. intros e. rewrite met_here.
    2:{ intros p' c' LO'. destruct (located_one _ _ _ _ _ LO LO') as [-> ->]. left. tauto. }
    split.
    - intros [_ W]. inversion W; subst; try (match goal with L' : located fs f _ _ |- _ => destruct (located_one _ _ _ _ _ LO L'); subst end); try reflexivity; try lia; try contradiction; try congruence.
    - intros ->. split; [exact F|eapply wr_circular; eassumption]. }
  assert (NC : ~ In c chain) by (intros I; apply existsb_chain in I; congruence).
  unfold table_file. destruct (read_to_string fs p) as [text|] eqn:RD.
  2:{ apply ONE. intros e. rewrite met_here.
      2:{ intros p' c' LO'. destruct (located_one _ _ _ _ _ LO LO') as [-> ->]. right. intros r (t & T & _). congruence. }
      split.
      - intros [_ W]. inversion W; subst; try (match goal with L' : located fs f _ _ |- _ => destruct (located_one _ _ _ _ _ LO L'); subst end); try reflexivity; try lia; try contradiction; try congruence.
        match goal with Q : contents ws fs p _ |- _ => destruct Q as (? & ? & _); congruence end.
      - intros ->. split; [exact F|eapply wr_unreadable; eassumption]. }
  unfold table_of_text. destruct (parse_table ws text) as [rules|errors] eqn:PT.
  - assert (CT : contents ws fs p rules) by (exists text; auto).
    destruct (expand_list (fun f0 => table_expanded_with ws fs fuel f0 (chain ++ [c])) (met (chain ++ [c])) (Some p) rules) as (res & E1 & E2 & E3).
    { intros n g I D. apply IH; [apply followed_snoc; auto|]. rewrite app_length. cbn [length]. unfold str, char in *. lia. }
    exists res. split; [exact E1|]. split.
    + intros e. rewrite E2. symmetry. apply (met_inside chain f p c rules e); assumption.
    + destruct res as [out|es]; [|exact E3]. econstructor; eassumption.
  - exists (inr (map (fun x => TParse (Some p) (fst x) (snd x)) errors)). split; [reflexivity|]. cbn [errors_of]. split.
    + intros e. rewrite met_here.
      2:{ intros p' c' LO'. destruct (located_one _ _ _ _ _ LO LO') as [-> ->]. right. intros r (t & T & T'). congruence. }
      rewrite in_map_iff. split.
      * intros ([n e'] & <- & I). cbn [fst snd]. split; [exact F|eapply wr_line; eassumption].
      * intros [_ W]. inversion W; subst; try (match goal with L' : located fs f _ _ |- _ => destruct (located_one _ _ _ _ _ LO L'); subst end); try lia; try contradiction; try congruence.
        -- match goal with Q : read_to_string fs p = Some _ |- _ => rewrite RD in Q; injection Q as -> end.
           match goal with Q : parse_table ws _ = inr _ |- _ => rewrite PT in Q; injection Q as -> end. eexists (_, _). split; [reflexivity|eassumption].
        -- match goal with Q : contents ws fs p _ |- _ => destruct Q as (? & Q1 & Q2); rewrite RD in Q1; injection Q1 as ->; congruence end.
    + destruct errors; [|discriminate]. exfalso. unfold parse_table in PT. destruct (bad_lines _); discriminate.
Qed.
End Includes.
