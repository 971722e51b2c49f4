(** How many pieces a pass makes, and how long they are. *)
From Coq Require Import List.
From Verif Require Import Base BaseProofs RegexpModel RuleModel TranslationModel TranslationProofs TableModel TableProofs PatternModel HyphenationModel
  BrailleModel TrieModel TrieProofs LoopModel LoopProofs CompileModel CompileSpec CompileProofs MainTable ConstraintModel ConstraintSpec IndicatorModel
  MainSpec StepProofs TraceSpec MainPass StepFacts OperandModel OperandProofs OperandProofs2 GateProofs.

(** ** Counting *)
(** different things, each of which comes from one of [ps] that gives nothing else *)
Lemma pigeon {P U} (R : P -> U -> Prop) (ps : list P) (us : list U) : (forall p u u', In p ps -> R p u -> R p u' -> u = u') ->
  (forall u, In u us -> exists p, In p ps /\ R p u) -> NoDup us -> length us <= length ps.
Proof.
  intros F E N.
  assert (X : exists qs, Forall2 R qs us /\ incl qs ps).
  { clear N. induction us as [|u us IH]; [exists []; split; [constructor|intros y []]|].
    destruct IH as (qs & H & I); [intros; apply E; right; assumption|]. destruct (E u (or_introl eq_refl)) as (p & Hp & Hr).
    exists (p :: qs). split; [constructor; assumption|]. intros y [<-|Hy]; auto. }
  destruct X as (qs & H & I). assert (L : length qs = length us) by (clear -H; induction H; cbn; auto). rewrite <- L. apply NoDup_incl_length; [|exact I].
  clear L E. induction H as [|q u qs us Hr H IH]; [constructor|]. inversion N; subst. constructor; [|apply IH; [assumption|intros y Hy; apply I; right; exact Hy]].
  intros Hq. assert (Y : exists u', In u' us /\ R q u').
  { clear -H Hq. induction H as [|q' u' qs us Hr' H IH]; [destruct Hq|]. destruct Hq as [->|Hq]; [exists u'; split; [left; reflexivity|assumption]|].
    destruct (IH Hq) as (y & H1 & H2). exists y. split; [right|]; assumption. }
  destruct Y as (u' & Hu & Hr'). rewrite (F q u u' (I q (or_introl eq_refl)) Hr Hr') in *. auto.
Qed.
(** a number for each, a number for all *)
Lemma bound_all {T} (Q : nat -> T -> Prop) (l : list T) : (forall t n m, n <= m -> Q n t -> Q m t) -> (forall t, In t l -> exists n, Q n t) ->
  exists n, forall t, In t l -> Q n t.
Proof.
  intros M. induction l as [|t l IH]; intros E; [exists 0; intros t []|]. destruct IH as (n & IH); [intros; apply E; right; assumption|].
  destruct (E t (or_introl eq_refl)) as (m & H). exists (n + m). intros y [<-|Hy]; [eapply M; [|exact H]; lia|eapply M; [|apply IH, Hy]; lia].
Qed.
Lemma bound_lengths (l : list str) : exists n, forall s, In s l -> length s <= n.
Proof. apply bound_all; [intros; lia|]. intros s _. exists (length s). lia. Qed.
Lemma flat_map_bound {A B} (f : A -> list B) n l : (forall a, In a l -> length (f a) <= n) -> length (flat_map f l) <= n * length l.
Proof.
  induction l as [|a l IH]; intros H; cbn [flat_map length]; [lia|]. rewrite app_length. specialize (IH (fun y Hy => H y (or_intror Hy))).
  specialize (H a (or_introl eq_refl)). rewrite Nat.mul_succ_r. lia.
Qed.

(** ** What one pattern writes *)
Definition weighs (lower : char -> list char) (n : nat) (p : cpat) : Prop := forall e b rest u,
  cpat_find lower p e b rest = Ok (Some u) -> length (r_output u) <= n * (1 + length (r_input u)).
Lemma swap_bound sw : exists n, forall s, length (swap sw s) <= n * length s.
Proof.
  destruct (bound_lengths (map snd sw)) as (n & H). exists (n + 1). intros s. unfold swap. apply flat_map_bound. intros c _.
  destruct (assoc c sw) as [t|] eqn:E; [|cbn; lia]. apply assoc_In in E. specialize (H t (in_map snd _ _ E)). unfold str, char in *. lia.
Qed.
Lemma targets_bound ts : exists n, forall capture s, targets_string ts capture = Ok s -> length s <= n * (1 + length capture).
Proof.
  induction ts as [|t ts (n & IH)]; [exists 0; intros c s [= <-]; cbn; lia|].
  assert (X : exists m, forall capture s, target_to_string (target_resolve t capture) = Ok s -> length s <= m * (1 + length capture)).
  { destruct t as [l| |sw].
    - exists (length l). intros c s [= <-]. rewrite Nat.mul_add_distr_l. lia.
    - exists 1. intros c s [= <-]. lia.
    - destruct (swap_bound sw) as (k & H). exists k. intros c s [= <-]. specialize (H c). rewrite Nat.mul_add_distr_l. lia. }
  destruct X as (m & X). exists (m + n). intros c s. cbn [targets_string]. destruct (target_to_string (target_resolve t c)) as [a| |] eqn:E; cbn [bind]; try discriminate.
  destruct (targets_string ts c) as [b| |] eqn:E'; cbn [bind]; try discriminate. intros [= <-]. rewrite app_length. specialize (X _ _ E). specialize (IH _ _ E').
  rewrite Nat.mul_add_distr_r. lia.
Qed.
Lemma weighs_some lower p : exists n, weighs lower n p.
Proof.
  unfold weighs, cpat_find. destruct p as [re [t|u]]; cbn [cp_re cp_payload].
  - exists (length (r_output t)). intros e b rest u. destruct (regexp_find lower re (env_get e) b rest) as [[f|]| |]; cbn [bind]; try discriminate.
    cbn [translation_resolve bind]. intros [= <-]. cbn [with_offset with_weight r_output r_input]. rewrite Nat.mul_add_distr_l. lia.
  - destruct (targets_bound (u_output u)) as (n & H). exists n. intros e b rest v. destruct (regexp_find lower re (env_get e) b rest) as [[f|]| |]; cbn [bind]; try discriminate.
    cbn [translation_resolve]. unfold unresolved_resolve. destruct (targets_string (u_output u) (f_capture f)) as [s| |] eqn:E; cbn [bind]; try discriminate.
    intros [= <-]. cbn [r_output r_input]. apply H, E.
Qed.
Lemma weighs_all lower ps : exists n, forall p, In p ps -> weighs lower n p.
Proof.
  apply bound_all; [|intros p _; apply weighs_some]. intros p n k L H e b rest u E. specialize (H e b rest u E).
  eapply Nat.le_trans; [exact H|]. apply Nat.mul_le_mono_r. exact L.
Qed.

(** ** The patterns of match rules test no variables *)
Lemma concat_unvar rs : forall acc, vars acc = [] -> Forall (fun r => vars r = []) rs -> vars (concat_left acc rs) = [].
Proof. induction rs as [|r rs IH]; intros acc A F; cbn [concat_left]; [exact A|]. inversion F; subst. apply IH; [cbn [vars]; rewrite A; assumption|assumption]. Qed.
Lemma attrs_unvar ctx attrs r : re_of_attrs ctx attrs = Some r -> vars r = [].
Proof. unfold re_of_attrs. destruct (existsb bad_attr attrs); [discriminate|]. intros [= <-]. reflexivity. Qed.
Lemma anchor_unvar s : vars (boundary_anchor s) = [].
Proof. destruct s; reflexivity. Qed.
Lemma nonempty_unvar rs r : Forall (fun r => vars r = []) rs -> concat_nonempty rs = Some r -> vars r = [].
Proof. destruct rs as [|q rs]; cbn; [discriminate|]. intros F [= <-]. inversion F; subst. apply concat_unvar; assumption. Qed.
Lemma patterns_unvar ctx ps : Forall (fun p => forall r, re_of_pattern ctx p = Some r -> vars r = []) ps ->
  forall r, re_of_patterns ctx ps = Some r -> vars r = [].
Proof.
  intros F r. unfold re_of_patterns.
  assert (X : forall l, re_of_pattern_list ctx ps = Some l -> Forall (fun r => vars r = []) l).
  { induction F as [|p ps Hp F IH]; cbn [re_of_pattern_list]; intros l E.
    - injection E as <-. constructor.
    - destruct (re_of_pattern ctx p) as [a|] eqn:Ea; [|discriminate].
      destruct (re_of_pattern_list ctx ps) as [b|]; [|discriminate]. injection E as <-. constructor; [apply Hp; reflexivity|apply IH; reflexivity]. }
  destruct (re_of_pattern_list ctx ps) as [l|]; cbn [opt_bind]; [|discriminate]. apply nonempty_unvar, X. reflexivity.
Qed.
Lemma pattern_unvar ctx p : forall r, re_of_pattern ctx p = Some r -> vars r = [].
Proof.
  induction p as [|s|sd|  |cs|a|a sd|ps IH|p IH|p IH|p IH|p IH|l r IHl IHr] using pat_ind'; intros R E;
    try (injection E as <-; try reflexivity; apply anchor_unvar; fail).
  - eapply attrs_unvar, E.
  - cbn [re_of_pattern] in E. destruct (re_of_attrs ctx a) as [q|] eqn:Eq; [|discriminate]. injection E as <-. cbn [vars]. rewrite (attrs_unvar _ _ _ Eq). apply anchor_unvar.
  - rewrite re_of_group in E. destruct (re_of_patterns ctx ps) as [q|] eqn:Eq; [|discriminate]. injection E as <-. cbn [vars]. eapply patterns_unvar; eauto.
  - cbn [re_of_pattern] in E. destruct (re_of_pattern ctx p) as [q|] eqn:Eq; [|discriminate]. eapply negate_unvar; [exact E|]. apply IH. reflexivity.
  - cbn [re_of_pattern] in E. destruct (re_of_pattern ctx p) as [q|] eqn:Eq; [|discriminate]. injection E as <-. cbn [vars]. auto.
  - cbn [re_of_pattern] in E. destruct (re_of_pattern ctx p) as [q|] eqn:Eq; [|discriminate]. injection E as <-. cbn [vars]. auto.
  - cbn [re_of_pattern] in E. destruct (re_of_pattern ctx p) as [q|] eqn:Eq; [|discriminate]. injection E as <-. cbn [vars]. auto.
  - rewrite re_of_either in E. destruct (re_of_patterns ctx l) as [a|] eqn:Ea; [|discriminate]. destruct (re_of_patterns ctx r) as [b|] eqn:Eb; [|discriminate].
    injection E as <-. cbn [vars]. rewrite (patterns_unvar _ _ IHl _ Ea), (patterns_unvar _ _ IHr _ Eb). reflexivity.
Qed.
Lemma match_gated ctx pre chars post dots o p : match_insert ctx pre chars post dots o = TOk p -> gated (cp_re p).
Proof.
  unfold match_insert, re_of_match. destruct (re_of_patterns ctx pre) as [a|] eqn:Ea; [|discriminate]. destruct (re_of_patterns ctx post) as [b|] eqn:Eb; [|discriminate].
  cbn [opt_map2]. intros [= <-]. cbn [cp_re]. apply unvar_gated. cbn [vars].
  rewrite (patterns_unvar ctx pre) with (r := a), (patterns_unvar ctx post) with (r := b); auto; apply Forall_forall; intros p _; apply pattern_unvar.
Qed.

(** ** The main pass *)
Section Main.
Variable compat : bool.
Variable read_dictionary : str -> tres hyph.
Variable d : direction.
Variable x : context.
Variable rules : list rule.
Variable lower : char -> list char.
Variable pt : ptable.
Hypothesis C : compiled compat read_dictionary d x rules pt.
Notation src := (rule_sources compat d x rules lower).
Definition patterns : list cpat := flat_map (match_entries x) rules ++ flat_map (context_entries x) rules.
Lemma patterns_gated p : In p patterns -> gated (cp_re p).
Proof.
  unfold patterns. rewrite in_app_iff, !in_flat_map. intros [(r & _ & H)|(r & _ & H)].
  - destruct r; cbn [match_entries] in H; try (destruct H; fail). destruct (dots_of x dots chars) as [t| |]; try (destruct H; fail).
    destruct (match_insert (x_chars x) pre chars post t _) as [q| |] eqn:E; try (destruct H; fail). destruct H as [<-|[]]. eapply match_gated, E.
  - destruct r; cbn [context_entries] in H; try (destruct H; fail).
    destruct (context_insert x test action _ Main) as [q| |] eqn:E; try (destruct H; fail). destruct H as [<-|[]]. eapply insert_gated, E.
Qed.
Lemma found_pattern input a u : found src input a u -> exists p e, In p patterns /\
  cpat_find lower p e (Nat.eqb (reached a) 0) (left input a) = Ok (Some u).
Proof.
  unfold patterns. intros [(p & Hp & F)|(e & _ & p & Hp & F)]; exists p; eexists; (split; [apply in_app_iff|exact F]); auto.
Qed.

Section Trace.
Variable lim : pos_flags.
Variable input : str.
(** the steps at one position *)
Lemma zero_step a y : reached a <= length input -> best src d lim input a y -> r_length (snd y) = 0 ->
  fst y = ByRule /\ new a (snd y) /\ (moved a \/ a = [] \/ exists u, found src input a u /\ subset_of u = subset_of (snd y) /\ r_offset u = 0).
Proof.
  intros L H Z. pose proof (step_facts compat read_dictionary d x rules lower pt C lim input a y L H) as (_ & SF). destruct y as [h t]; cbn [fst snd] in *.
  destruct h; cbn [best] in H.
  - destruct SF as [SF _]. lia.
  - destruct H as (AV & NW & _). split; [reflexivity|]. split; [exact NW|]. unfold available in AV. destruct SF as (r & Ir & O & _ & KC & K2 & K3).
    destruct (flag_at k_comp6 lim (reached a)) eqn:FL.
    { exfalso. assert (is_comp6 r = true) by (apply KC; reflexivity). assert (1 <= r_length t) by auto. lia. }
    destruct AV as (_ & [DG|(OF & _)]).
    { exfalso. apply (digit_facts compat d x rules lower lim input a t) in DG. destruct DG as (_ & X & _). lia. }
    destruct OF as [T|[(F & Z0)|(b & c & v & Ea & _ & _ & _ & (b' & z & Ec & Lz) & _)]].
    + exfalso. destruct (text_offer compat read_dictionary d x rules lower pt C t _ _ T) as (T' & _). apply (trie_stands lower input (reached a) t L) in T'. lia.
    + right. right. exists t. auto.
    + left. exists (b ++ b'), z. split; [|exact Lz]. rewrite Ea, Ec, app_assoc. reflexivity.
  - destruct SF as [SF _]. lia.
Qed.
Notation P := (length patterns).
Definition at_run (b c : list step) : Prop :=
  (b = [] \/ moved b) /\ Forall (fun y : step => r_length (snd y) = 0) c /\ NoDup (map (fun y : step => subset_of (snd y)) c) /\
  incl (map (fun y : step => subset_of (snd y)) c) (inserted (b ++ c)) /\
  (forall y, In y (tl c) -> exists p e u, In p patterns /\ cpat_find lower p e (Nat.eqb (reached b) 0) (left input b) = Ok (Some u) /\ subset_of u = subset_of (snd y)) /\
  length b <= (P + 2) * reached b.
Lemma run_length b c : at_run b c -> length c <= P + 1.
Proof.
  intros (_ & _ & N & _ & F & _). destruct c as [|y c]; [cbn; lia|]. cbn [tl] in F. cbn [map] in N. inversion N as [|? ? _ N']; subst. cbn [length].
  rewrite <- (map_length (fun y : step => subset_of (snd y)) c).
  assert (X : length (map (fun y : step => subset_of (snd y)) c) <= P); [|lia].
  apply (pigeon (fun p s => exists e u, cpat_find lower p e (Nat.eqb (reached b) 0) (left input b) = Ok (Some u) /\ subset_of u = s)); [| |exact N'].
  - intros p s s' Hp (e & u & E & <-) (e' & u' & E' & <-). f_equal. eapply (offer_same lower p); [apply patterns_gated, Hp|exact E|exact E'].
  - intros s Hs. apply in_map_iff in Hs. destruct Hs as (z & <- & Hz). destruct (F z Hz) as (p & e & u & H1 & H2 & H3). exists p. split; [exact H1|]. eauto.
Qed.
Lemma zero_reached c : Forall (fun y : step => r_length (snd y) = 0) c -> reached c = 0.
Proof. induction 1 as [|y c H F IH]; [reflexivity|]. unfold reached in *. cbn [map list_sum fold_right] in *. rewrite H. exact IH. Qed.
Lemma runs ts : derivation src d lim input ts -> exists b c, ts = b ++ c /\ at_run b c.
Proof.
  induction 1 as [|a y D (b & c & -> & R) BE].
  - exists [], []. split; [reflexivity|]. repeat split; try (cbn; lia); try (constructor; fail); auto; intros z [].
  - pose proof (run_length b c R) as RL. pose proof R as (R1 & R2 & R3 & R4 & R5 & R6). pose proof (zero_reached c R2) as Z.
    assert (L : reached (b ++ c) <= length input) by (eapply derivation_inside; eauto).
    destruct (Nat.eq_dec (r_length (snd y)) 0) as [E|E].
    + exists b, (c ++ [y]). split; [rewrite app_assoc; reflexivity|]. destruct (zero_step (b ++ c) y L BE E) as (HR & NW & FO).
      assert (EI : inserted (b ++ c ++ [y]) = subset_of (snd y) :: inserted (b ++ c)).
      { unfold inserted. rewrite app_assoc, fold_left_app. cbn [fold_left]. destruct y as [h t]; cbn [fst snd] in *. subst h. cbn [insert_step]. rewrite E. reflexivity. }
      split; [exact R1|]. split; [apply Forall_app; auto|]. rewrite map_app. cbn [map].
      split; [|split; [|split; [|exact R6]]].
      * apply NoDup_Add with (a := subset_of (snd y)) (l := map (fun y : step => subset_of (snd y)) c).
        { rewrite <- (app_nil_r (map _ c)) at 1. apply Add_app. }
        split; [exact R3|]. intros I. apply NW, R4, I.
      * rewrite EI. intros s I. apply in_app_iff in I. destruct I as [I|[<-|[]]]; [right; apply R4, I|left; reflexivity].
      * intros z I. destruct c as [|c0 c]; [destruct I|]. cbn [tl app] in I. apply in_app_iff in I. destruct I as [I|[<-|[]]]; [apply R5, I|].
        destruct FO as [(b' & w & Ew & Lw)|[FO|(u & F & S & _)]].
        -- exfalso. destruct (exists_last (l := c0 :: c)) as (c' & w' & Ec); [discriminate|]. rewrite Ec, app_assoc in Ew. apply app_inj_tail in Ew. destruct Ew as [_ <-].
           rewrite Ec in R2. apply Forall_app in R2. destruct R2 as [_ R2]. inversion R2; subst. lia.
        -- exfalso. destruct b; discriminate FO.
        -- apply found_pattern in F. destruct F as (p & e & Hp & F). rewrite reached_app, Z, Nat.add_0_r in F. unfold left in *. rewrite reached_app, Z, Nat.add_0_r in F. eauto 8.
    + exists ((b ++ c) ++ [y]), []. split; [rewrite app_nil_r; reflexivity|]. split; [|split; [constructor|split; [constructor|split; [intros s []|split; [intros z []|]]]]].
      * right. exists (b ++ c), y. split; [reflexivity|lia].
      * rewrite !app_length, reached_app, reached_app, Z, reached_one. cbn [length]. rewrite Nat.add_0_r.
        apply Nat.le_trans with ((P + 2) * (reached b + 1)); [rewrite Nat.mul_add_distr_l; lia|]. apply Nat.mul_le_mono_l. lia.
Qed.
Lemma steps_bound ts : derivation src d lim input ts -> length ts <= (P + 2) * reached ts + P + 1.
Proof.
  intros D. destruct (runs ts D) as (b & c & -> & R). pose proof (run_length b c R). destruct R as (_ & R2 & _ & _ & _ & R6). rewrite app_length, reached_app, (zero_reached c R2), Nat.add_0_r. lia.
Qed.
End Trace.

(** what a piece writes *)
Lemma spell_bound defs : exists n, forall s h, spell defs s = Ok h -> length h <= n * length s.
Proof.
  destruct (bound_lengths (map snd defs)) as (n & H). exists (n + 1). induction s as [|c s IH]; intros h E; cbn [spell] in E; [injection E as <-; cbn; lia|].
  destruct (defs_get defs c) as [t|] eqn:G.
  - cbn [bind] in E. destruct (spell defs s) as [g| |]; cbn [bind] in E; try discriminate. injection E as <-. unfold defs_get in G. apply assoc_In in G.
    specialize (H t (in_map snd _ _ G)). specialize (IH g eq_refl). rewrite app_length. cbn [length]. unfold str, char in *. lia.
  - destruct (fallback c) as [g| |]; cbn [bind] in E; try discriminate. destruct (spell defs s) as [q| |]; cbn [bind] in E; try discriminate. injection E as <-.
    specialize (IH q eq_refl). cbn [length app] in *. unfold str, char in *. lia.
Qed.
Lemma hex_length f : forall v acc, length (hex_loop f v acc) <= f + length acc.
Proof. induction f as [|f IH]; intros v acc; cbn [hex_loop]; [lia|]. destruct (N.ltb v 16); [cbn [length]; lia|]. specialize (IH (v / 16)%N (hex_digit (v mod 16) :: acc)). cbn [length] in IH. lia. Qed.
Lemma undefined_bound : exists n, forall c h, handle_undefined (x_defs x) c = Ok h -> length h <= n.
Proof.
  destruct (spell_bound (x_defs x)) as (n & H). exists (n * 8). intros c h E. eapply Nat.le_trans; [exact (H _ _ E)|]. apply Nat.mul_le_mono_l.
  unfold escape_char. cbn [length]. pose proof (hex_length 6 c []) as L. cbn [length] in L. unfold str, char in *. lia.
Qed.
Lemma entries_bound (l : list ins_args) : exists n, forall rest prev u, rule_offers compat d x lower l rest prev u -> length (r_output u) <= n.
Proof.
  destruct (bound_lengths (map (given d) l)) as (n & H). exists n. intros rest prev u (full & a & F & _ & ->). apply in_force_in in F. cbn [offer resolved_new r_output]. apply H, in_map, F.
Qed.
Lemma table_bound (l : list (char * resolved)) : exists n, forall c u, assoc c l = Some u -> length (r_output u) <= n.
Proof.
  destruct (bound_lengths (map (fun y => r_output (snd y)) l)) as (n & H). exists n. intros c u E. apply assoc_In in E. exact (H _ (in_map (fun y => r_output (snd y)) _ _ E)).
Qed.
Lemma piece_bound : exists n, forall lim input a y, reached a <= length input -> best src d lim input a y -> length (r_output (snd y)) <= n * (1 + r_length (snd y)).
Proof.
  destruct (entries_bound (main_entries d x rules)) as (n1 & H1). destruct (entries_bound (nocross_entries x rules)) as (n2 & H2).
  destruct (entries_bound (comp6_entries x rules)) as (n3 & H3). destruct (table_bound (digit_table d rules)) as (n4 & H4).
  destruct (table_bound (if compat then character_table d x rules else rev (character_table d x rules))) as (n5 & H5).
  destruct undefined_bound as (n6 & H6). destruct (weighs_all lower patterns) as (n7 & H7).
  set (n8 := match undefined_dots rules with Some dots => length dots | None => 0 end).
  exists (n1 + n2 + n3 + n4 + n5 + n6 + n7 + n8). intros lim input a [h u] L H. pose proof (step_facts compat read_dictionary d x rules lower pt C lim input a (h, u) L H) as ((_ & SL & _) & _).
  cbn [snd] in *. rewrite SL. set (k := 1 + length (r_input u)).
  assert (G : forall n, n <= n1 + n2 + n3 + n4 + n5 + n6 + n7 + n8 -> length (r_output u) <= n * k -> length (r_output u) <= (n1 + n2 + n3 + n4 + n5 + n6 + n7 + n8) * k).
  { intros n N Q. eapply Nat.le_trans; [exact Q|]. apply Nat.mul_le_mono_r, N. }
  assert (G1 : forall n, n <= n1 + n2 + n3 + n4 + n5 + n6 + n7 + n8 -> length (r_output u) <= n -> length (r_output u) <= (n1 + n2 + n3 + n4 + n5 + n6 + n7 + n8) * k).
  { intros n N Q. apply (G n N). unfold k. rewrite Nat.mul_add_distr_l. lia. }
  assert (FO : forall a' v, found src input a' v -> r_output v = r_output u -> r_input v = r_input u -> length (r_output u) <= n7 * k).
  { intros a' v F E1 E2. apply found_pattern in F. destruct F as (p & e & Hp & F). rewrite <- E1. unfold k. rewrite <- E2. exact (H7 p Hp _ _ _ _ F). }
  destruct h; cbn [best] in H.
  - destruct H as ((H & _) & _). apply (G1 n2); [lia|]. exact (H2 _ _ _ H).
  - destruct H as (H & _). unfold available in H. destruct (flag_at k_comp6 lim (reached a)); [apply (G1 n3); [lia|]; exact (H3 _ _ _ H)|].
    destruct H as (_ & [(_ & _ & c & r & _ & H)|(H & _)]); [apply (G1 n4); [lia|]; exact (H4 _ _ H)|].
    destruct H as [H|[(H & _)|(b & c & v & _ & H & _ & _ & _ & E)]].
    + apply (G1 n1); [lia|]. exact (H1 _ _ _ H).
    + apply (G n7); [lia|]. eapply FO; [exact H|reflexivity|reflexivity].
    + apply (G n7); [lia|]. eapply FO; [exact H|rewrite E; reflexivity|rewrite E; reflexivity].
  - destruct H as ((c & r & _ & H) & _). cbn [by_character rule_sources] in H. unfold character_offers in H.
    destruct (character_lookup d x rules compat c) as [t|] eqn:E.
    + subst u. apply (G1 n5); [lia|]. exact (H5 _ _ E).
    + unfold n8 in *. destruct (undefined_dots rules) as [dots|].
      * subst u. apply (G1 (length dots)); [lia|]. reflexivity.
      * destruct H as (h & H & ->). apply (G1 n6); [lia|]. exact (H6 _ _ H).
Qed.
End Main.
