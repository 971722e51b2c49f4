(** C68: what a swap class replaces. *)
From Coq Require Import Strings.String.
From Coq Require Import List.
From Verif Require Import Base BaseProofs RuleModel TranslationModel TableModel TableProofs RegexpModel RegexpSpec
  PatternModel OperandModel OperandProofs TestSpec PatternProofs PropContext LoopModel MultipassProofs PassSpec VariableSpec PropMultipass PropPasses.

(** ** Specification *)
(** the rules that define a swap class: its name, the characters and what they become *)
Definition swap_rule (r : rule) : option (str * list char * list str) :=
  match r with
  | RSwapcc name chars replacement => Some (name, chars, map (fun c => [c]) replacement)
  | RSwapcd name chars dots => Some (name, chars, dots)
  | RSwapdd name dots replacement => Some (name, dots, replacement)
  | _ => None
  end.
Definition swap_name (r : rule) : option str := option_map (fun y => fst (fst y)) (swap_rule r).
(** a character becomes the text at the same place - the last such place if it is listed twice *)
Definition replaces (r : rule) (c : char) (s : str) : Prop :=
  exists name cs ss i, swap_rule r = Some (name, cs, ss) /\ nth_error cs i = Some c /\ nth_error ss i = Some s /\
    forall j s', i < j -> nth_error cs j = Some c -> nth_error ss j = Some s' -> False.
(** in a table the last rule for a name counts *)
Definition swaps_to (rules : list rule) (name : str) (c : char) (s : str) : Prop :=
  exists a r b, rules = a ++ r :: b /\ (forall q, In q b -> swap_name q <> Some name) /\ swap_name r = Some name /\ replaces r c s.

(** ** Proofs *)
Definition pairs_of (r : rule) : option (str * list (char * str)) :=
  option_map (fun y => (fst (fst y), combine (snd (fst y)) (snd y))) (swap_rule r).
Lemma assoc_rev_combine (c : char) (cs : list char) (ss : list str) s :
  assoc c (rev (combine cs ss)) = Some s <->
  exists i, nth_error cs i = Some c /\ nth_error ss i = Some s /\ forall j s', i < j -> nth_error cs j = Some c -> nth_error ss j = Some s' -> False.
Proof.
  revert ss s. induction cs as [|y cs IH]; intros ss s.
  - cbn. split; [discriminate|]. intros ([|i] & H & _); discriminate.
  - destruct ss as [|z ss]; [cbn; split; [discriminate|intros ([|i] & _ & H & _); discriminate]|]. cbn [combine rev].
    assert (AA : forall l, assoc c (l ++ [(y, z)]) = match assoc c l with Some v => Some v | None => if N.eqb c y then Some z else None end).
    { clear. induction l as [|[k v] l IH]; cbn [assoc app]; [reflexivity|]. destruct (N.eqb c k); auto. }
    rewrite AA. destruct (assoc c (rev (combine cs ss))) as [v|] eqn:E.
    + pose proof (proj1 (IH ss v) E) as (i & H1 & H2 & H3). split.
      * intros [= <-]. exists (S i). split; [exact H1|]. split; [exact H2|]. intros [|j] s' L; [lia|]. apply (H3 j s'). lia.
      * intros ([|k] & K1 & K2 & K3); [destruct (K3 (S i) v); [lia|exact H1|exact H2]|]. rewrite <- E. apply IH. exists k.
        split; [exact K1|]. split; [exact K2|]. intros j s' L. apply (K3 (S j) s'). lia.
    + assert (NO : forall j s', nth_error cs j = Some c -> nth_error ss j = Some s' -> False).
      { clear - E. revert ss E. induction cs as [|u cs IH]; intros [|w ss] E [|j] s'; try discriminate.
        - cbn. intros [= ->] [= ->]. cbn [combine rev] in E. clear IH.
          assert (X : forall l, assoc c (l ++ [(c, s')]) <> None).
          { clear. induction l as [|[k v] l IH]; cbn [assoc app]; [rewrite N.eqb_refl; discriminate|]. destruct (N.eqb c k); [discriminate|exact IH]. }
          exact (X _ E).
        - cbn [nth_error]. apply IH. cbn [combine rev] in E. clear - E. revert E. generalize (rev (combine cs ss)). intros l.
          induction l as [|[k v] l IH]; cbn [assoc app]; [reflexivity|]. destruct (N.eqb c k); [discriminate|exact IH]. }
      split.
      * destruct (N.eqb c y) eqn:Ey; [|discriminate]. apply N.eqb_eq in Ey. subst y. intros [= <-]. exists 0. split; [reflexivity|]. split; [reflexivity|].
        intros [|j] s' L; [lia|]. apply (NO j s').
      * intros ([|k] & K1 & K2 & _).
        -- cbn in K1, K2. injection K1 as ->. injection K2 as ->. rewrite N.eqb_refl. reflexivity.
        -- destruct (NO k s K1 K2).
Qed.
Section Context.
Variable alph : char -> bool.
Variable compat : bool.
Lemma step1_swaps x r : x_swaps (context_step1 alph compat x r) = x_swaps x.
Proof. destruct r; try reflexivity. cbn. destruct (forallb _ _); try destruct dots; reflexivity. Qed.
Lemma attribute_swaps x k kd chars : x_swaps (attribute_chars x k kd chars) = x_swaps x.
Proof. reflexivity. Qed.
Lemma step2_swaps x r x' : context_step2 compat x r = TOk x' ->
  x_swaps x' = match pairs_of r with Some (n, l) => swaps_insert (x_swaps x) n l | None => x_swaps x end.
Proof.
  destruct r; cbn; try (intros [= <-]; reflexivity).
  destruct (defs_get _ _); [intros [= <-]; reflexivity|]. destruct compat; intros [= <-]. reflexivity.
Qed.
Definition swap_pairs (rules : list rule) (name : str) : option (list (char * str)) :=
  fold_left (fun o r => match pairs_of r with Some (n, l) => if str_eqb name n then Some l else o | None => o end) rules None.
Lemma fold2_swaps rules name : forall x x', context_fold2 compat x rules = TOk x' ->
  swaps_get (x_swaps x') name =
  option_map (@rev _) (fold_left (fun o r => match pairs_of r with Some (n, l) => if str_eqb name n then Some l else o | None => o end) rules
     (option_map (@rev _) (swaps_get (x_swaps x) name))).
Proof.
  induction rules as [|r rules IH]; intros x x' E; cbn [context_fold2 fold_left] in *.
  - injection E as <-. destruct (swaps_get _ _); cbn; [rewrite rev_involutive|]; reflexivity.
  - destruct (context_step2 compat x r) as [y| |] eqn:Ey; try discriminate. cbn [tbind] in E. rewrite (IH y x' E), (step2_swaps x r y Ey).
    f_equal. f_equal. destruct (pairs_of r) as [[n l]|]; [|reflexivity]. cbn [swaps_insert swaps_get]. destruct (str_eqb name n); [|reflexivity].
    cbn. unfold swapper_new. rewrite rev_involutive. reflexivity.
Qed.
Lemma compile_swaps rules x name : context_compile alph compat rules = TOk x ->
  swaps_get (x_swaps x) name = option_map (@rev _) (swap_pairs rules name).
Proof.
  intros E. unfold context_compile in E. rewrite (fold2_swaps rules name _ _ E).
  assert (X : forall l y, x_swaps (fold_left (context_step1 alph compat) l y) = x_swaps y).
  { induction l as [|r l IH]; intros y; cbn [fold_left]; [reflexivity|]. rewrite IH. apply step1_swaps. }
  rewrite X. reflexivity.
Qed.
Lemma swap_pairs_ok rules name l : swap_pairs rules name = Some l <->
  exists a r b, rules = a ++ r :: b /\ (forall q, In q b -> swap_name q <> Some name) /\ pairs_of r = Some (name, l).
Proof.
  unfold swap_pairs. revert l. induction rules as [|r rules IH] using rev_ind; intros l.
  - split; [discriminate|]. intros ([|] & ? & ? & H & _); discriminate.
  - rewrite fold_left_app. cbn [fold_left].
    assert (NN : forall n l0, pairs_of r = Some (n, l0) -> swap_name r = Some n).
    { intros n l0. unfold pairs_of, swap_name. destruct (swap_rule r) as [[[? ?] ?]|]; cbn; congruence. }
    assert (ND : pairs_of r = None -> swap_name r = None).
    { unfold pairs_of, swap_name. destruct (swap_rule r) as [[[? ?] ?]|]; cbn; congruence. }
    assert (LAST : forall a q b, rules ++ [r] = a ++ q :: b -> (b = [] /\ q = r /\ a = rules) \/ exists b', b = b' ++ [r] /\ rules = a ++ q :: b').
    { intros a q b E. destruct b as [|z b] using rev_ind.
      - left. apply app_inj_tail in E. destruct E. auto.
      - right. exists b. clear IHb. rewrite app_comm_cons, app_assoc in E. apply app_inj_tail in E. destruct E as [-> ->]. auto. }
    assert (SKIP : swap_name r <> Some name ->
      ((exists a q b, rules = a ++ q :: b /\ (forall q', In q' b -> swap_name q' <> Some name) /\ pairs_of q = Some (name, l)) <->
       (exists a q b, rules ++ [r] = a ++ q :: b /\ (forall q', In q' b -> swap_name q' <> Some name) /\ pairs_of q = Some (name, l)))).
    { intros NE. split.
      - intros (a & q & b & -> & H & P). exists a, q, (b ++ [r]). split; [rewrite <- app_assoc; reflexivity|]. split; [|exact P].
        intros q' I. apply in_app_iff in I. destruct I as [I|[<-|[]]]; auto.
      - intros (a & q & b & E & H & P). destruct (LAST a q b E) as [(-> & -> & ->)|(b' & -> & ->)].
        + exfalso. apply NE, (NN name l P).
        + exists a, q, b'. split; [reflexivity|]. split; [|exact P]. intros q' I. apply H, in_app_iff. auto. }
    destruct (pairs_of r) as [[n l0]|] eqn:P.
    + specialize (NN n l0 eq_refl). destruct (str_eqb name n) eqn:En.
      * apply str_eqb_eq in En. subst n. split.
        -- intros [= ->]. exists rules, r, []. split; [reflexivity|]. split; [intros q []|exact P].
        -- intros (a & q & b & E & H & Pq). destruct (LAST a q b E) as [(-> & -> & ->)|(b' & -> & ->)]; [congruence|].
           exfalso. apply (H r); [apply in_app_iff; right; left; reflexivity|exact NN].
      * rewrite IH. apply SKIP. rewrite NN. intros [= ->]. rewrite (proj2 (str_eqb_eq name name) eq_refl) in En. discriminate.
    + rewrite IH. apply SKIP. rewrite (ND eq_refl). discriminate.
Qed.

(** A character is replaced by what the last swap rule with the name has at its place; a character
    that rule does not list is not replaced. *)
Theorem C68_swap_class : forall rules x name c s, context_compile alph compat rules = TOk x ->
  (table_swap x name c = Some s <-> swaps_to rules name c s).
Proof.
  intros rules x name c s E. unfold table_swap. rewrite (compile_swaps rules x name E). split.
  - destruct (swap_pairs rules name) as [l|] eqn:P; [|discriminate]. cbn. intros A.
    apply swap_pairs_ok in P. destruct P as (a & r & b & -> & H & P). exists a, r, b. split; [reflexivity|]. split; [exact H|].
    unfold pairs_of, swap_name in *. destruct (swap_rule r) as [[[n cs] ss]|] eqn:R; [|discriminate]. cbn in P. injection P as -> <-.
    split; [reflexivity|]. apply assoc_rev_combine in A. destruct A as (i & A). exists name, cs, ss, i. rewrite R. intuition.
  - intros (a & r & b & -> & H & N & (n & cs & ss & i & R & A)).
    assert (P : pairs_of r = Some (name, combine cs ss)).
    { unfold pairs_of, swap_name in *. rewrite R in *. cbn in N |- *. congruence. }
    rewrite (proj2 (swap_pairs_ok (a ++ r :: b) name (combine cs ss))) by (exists a, r, b; auto). cbn.
    apply assoc_rev_combine. exists i. exact A.
Qed.

(** In a trace: where the action of the rule of a piece is a swap class alone, each character of the text
    is replaced so or kept. *)
Theorem C68_swap_action : forall lower rules all d st x ps text out t r test name,
  context_compile alph compat all = TOk x -> parsed rules -> multipass_compile rules d st x = TOk ps ->
  multipass_trace lower ps st text = Ok out -> In t out -> r_origin t = Some r -> pass_rule r test [ActSwapClass name] ->
  exists parts, r_output t = concat parts /\
    Forall2 (fun c s => swaps_to all name c s \/ s = [c] /\ forall s', ~ swaps_to all name c s') (r_input t) parts.
Proof.
  intros lower rules all d st x ps text out t r test name EX PR C T I O K. apply in_split in I. destruct I as (a & b & E).
  destruct (C05_variables_of_a_pass lower rules d st x ps text out a t b PR C T E) as [(c & _ & _ & N)|(r' & test' & action & _ & K' & _ & O' & W & _)]; [congruence|].
  assert (r' = r) as -> by congruence. rewrite <- (rule_action _ _ _ K'), (rule_action _ _ _ K) in W. cbn [flat_map] in W. rewrite app_nil_r in W.
  cbn [action_output] in W. unfold swapped in W. rewrite W. clear - EX. generalize (r_input t). intros l.
  exists (map (fun c => match table_swap x name c with Some s => s | None => [c] end) l). split; [apply flat_map_concat_map|].
  induction l as [|c l IH]; cbn [map]; constructor; [|exact IH].
  destruct (table_swap x name c) as [s|] eqn:E; [left; apply (C68_swap_class all x name c s EX), E|].
  right. split; [reflexivity|]. intros s' H. apply (C68_swap_class all x name c s' EX) in H. congruence.
Qed.
End Context.
Print Assumptions C68_swap_class.
Print Assumptions C68_swap_action.

(** ** Examples *)
Definition ex_swaps : list rule :=
  [RSwapcc (lit "sw") (lit "ab") (lit "xy"); RSwapcd (lit "sw") (lit "bcb") [lit "1"; lit "22"; lit "333"]; RSwapcc (lit "other") (lit "a") (lit "z")].
Example C68_example :
  exists x, context_compile (fun _ => false) true ex_swaps = TOk x /\
    map (table_swap x (lit "sw")) (lit "abc") = [None; Some (lit "333"); Some (lit "22")] /\
    map (table_swap x (lit "other")) (lit "ab") = [Some (lit "z"); None] /\ table_swap x (lit "none") (97%N) = None.
Proof. eexists. split; [vm_compute; reflexivity|]. vm_compute. auto. Qed.
(** That all the swap rules with a name together make the class is false. *)
Theorem C68_earlier_rules_refuted :
  ~ forall rules x name r c s, context_compile (fun _ => false) true rules = TOk x -> In r rules -> swap_name r = Some name -> replaces r c s ->
      exists s', table_swap x name c = Some s'.
Proof.
  intros H. destruct (context_compile (fun _ => false) true ex_swaps) as [x| |] eqn:E; try discriminate E.
  destruct (H ex_swaps x (lit "sw") (RSwapcc (lit "sw") (lit "ab") (lit "xy")) 97%N (lit "x") E) as (s' & W).
  - left. reflexivity.
  - reflexivity.
  - exists (lit "sw"), (lit "ab"), (map (fun c => [c]) (lit "xy")), 0. split; [reflexivity|]. split; [reflexivity|]. split; [reflexivity|].
    intros [|[|j]] s' L; try lia; cbn; try discriminate. destruct j; discriminate.
  - vm_compute in E. injection E as <-. vm_compute in W. discriminate.
Qed.
Print Assumptions C68_earlier_rules_refuted.
