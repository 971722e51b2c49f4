(** Word by word translation: the main pass. *)
From Coq Require Import Permutation.
From Verif Require Import Base BaseProofs RuleModel TranslationModel TranslationProofs TableModel TableProofs RegexpModel
  RegexpSpec PatternModel MatchProofs TrieModel TrieProofs PropTrie
  HyphenationModel HyphenationProofs LoopModel LoopProofs MultipassProofs PrimaryProofs PrimaryTrace CompileModel CompileSpec
  CompileProofs MainTable ConstraintModel ConstraintSpec ConstraintProofs IndicatorModel IndicatorProofs
  CapsSpec CapsProofs CapsFacts EmphSpec EmphProofs MainSpec StepProofs TraceSpec MainPass FrameSpec LocalSpec LocalProofs.

(** ** The loop without match and context rules, forward *)
Section Walk.
Variable lower upper : char -> list char.
Variable p : ptable.
Hypothesis OK : table_ok lower p.
Hypothesis NM : p_match p = [].
Hypothesis NC : p_context p = [].
Hypothesis FW : p_dir p = Forward.
Notation find n := (find_translations lower n).
Section Lim.
Variable lim : pos_flags.
Variable ind : list (list resolved).
Definition options (pos : nat) (prev : option char) (rest : str) : list resolved :=
  if flag_at k_comp6 lim pos then find (p_comp6 p) rest prev
  else filter (fun t => (punc_ok lim pos t && (negb (flag_at k_dont_contract lim pos) || Nat.leb (r_length t) 1))%bool) (find (p_trie p) rest prev).
Definition pick (pos : nat) (prev : option char) (rest : str) : option (res resolved) :=
  let nocross := max_weight (nocross_candidates lower p lim rest prev pos) in
  let candidate := max_weight (options pos prev rest) in
  match nocross, candidate with
  | Some n, Some t => Some (Ok (if Nat.leb (r_weight t) (r_weight n) then n else t))
  | Some n, None => Some (Ok n)
  | None, Some t => Some (Ok t)
  | None, None => match rest with c :: _ => Some (fallback_piece p c) | [] => None end
  end.
Inductive walk : nat -> option char -> str -> list resolved -> Prop :=
| WalkEnd pos prev rest : pick pos prev rest = None -> walk pos prev rest (nth pos ind [])
| WalkStep pos prev rest t out : pick pos prev rest = Some (Ok t) ->
    walk (pos + r_length t) (last_char (r_input t)) (skipn (r_length t) rest) out ->
    walk pos prev rest (nth pos ind [] ++ t :: out).
Lemma max_In l t : max_weight l = Some t -> In t l.
Proof.
  unfold max_weight. assert (G : forall l b, fold_left (fun best t => match best with None => Some t | Some b => if Nat.leb (r_weight b) (r_weight t) then Some t else Some b end) l b = Some t -> b = Some t \/ In t l).
  { clear l. induction l as [|y l IH]; intros b H; [left; exact H|]. cbn [fold_left] in H. apply IH in H. destruct H as [H|H]; [|right; right; exact H].
    destruct b as [b|]; [destruct (Nat.leb (r_weight b) (r_weight y))|]; injection H as ->; auto; right; left; reflexivity. }
  intros H. apply G in H. destruct H as [H|H]; [discriminate|exact H].
Qed.
Lemma pick_offer pos prev rest t : pick pos prev rest = Some (Ok t) ->
  1 <= r_length t <= length rest /\ r_length t = length (r_input t) /\ r_effects t = [].
Proof.
  unfold pick. intros E.
  assert (A : forall t, max_weight (nocross_candidates lower p lim rest prev pos) = Some t -> trie_offer lower rest t).
  { intros u H. apply max_In in H. unfold nocross_candidates in H. apply filter_In in H. apply (ok_nocross _ _ OK rest prev), H. }
  assert (B : forall t, max_weight (options pos prev rest) = Some t -> trie_offer lower rest t).
  { intros u H. apply max_In in H. unfold options in H. destruct (flag_at k_comp6 lim pos); [apply (ok_comp6 _ _ OK rest prev), H|].
    apply filter_In in H. apply (ok_trie _ _ OK rest prev), H. }
  assert (D : forall t, trie_offer lower rest t -> 1 <= r_length t <= length rest /\ r_length t = length (r_input t) /\ r_effects t = []) by (intros u (H1 & H2 & H3 & H4 & H5 & H6); auto).
  destruct (max_weight (nocross_candidates lower p lim rest prev pos)) as [n|]; destruct (max_weight (options pos prev rest)) as [c|].
  - injection E as <-. destruct (Nat.leb _ _); auto.
  - injection E as <-. auto.
  - injection E as <-. auto.
  - destruct rest as [|c r]; [discriminate|]. injection E as E. unfold fallback_piece in E. destruct (assoc c (p_chars p)) as [u|] eqn:Ea.
    + injection E as <-. destruct (ok_chars _ _ OK c u Ea) as (H1 & H2 & H3 & H4). rewrite H2, H3. cbn. split; [lia|auto].
    + destruct (p_undefined p); [injection E as <-; cbn; split; [lia|auto]|]. destruct (handle_undefined (p_fallback p) c); try discriminate. injection E as <-. cbn. split; [lia|auto].
Qed.
Lemma walk_same pos prev rest a : walk pos prev rest a -> forall b, walk pos prev rest b -> a = b.
Proof.
  induction 1 as [pos prev rest E|pos prev rest t out E W IH]; intros b H; inversion H as [? ? ? E'|? ? ? t' out' E' W']; subst.
  - reflexivity.
  - congruence.
  - congruence.
  - rewrite E in E'. injection E' as <-. rewrite (IH _ W'). reflexivity.
Qed.
Variable input : str.
Lemma no_later l : (forall t, In t l -> exists rest, trie_offer lower rest t) -> now l = l /\ later l = [].
Proof.
  intros H. unfold now, later. induction l as [|t l IH]; [auto|]. destruct IH as [I1 I2]; [intros u Hu; apply H; right; exact Hu|].
  destruct (H t (or_introl eq_refl)) as (rest & Z & _). cbn [filter]. assert (AZ : at_zero t = true) by (unfold at_zero; rewrite Z; reflexivity). rewrite AZ. cbn [negb]. rewrite I1, I2. auto.
Qed.
Lemma filter_two {A} (f g : A -> bool) l : filter f (filter g l) = filter (fun y => (g y && f y)%bool) l.
Proof. induction l as [|y l IH]; [reflexivity|]. cbn [filter]. destruct (g y); cbn [filter andb]; [destruct (f y)|]; rewrite IH; reflexivity. Qed.
Lemma filter_ext' {A} (f g : A -> bool) l : (forall y, In y l -> f y = g y) -> filter f l = filter g l.
Proof. induction l as [|y l IH]; intros H; [reflexivity|]. cbn [filter]. rewrite (H y (or_introl eq_refl)), IH; [reflexivity|]. intros z Hz. apply H. right. exact Hz. Qed.
Lemma candidates_options s : s_delayed s = [] -> primary_candidates lower p lim input s = Ok (options (s_pos s) (s_prev s) (s_rest s), []).
Proof.
  intros D. unfold primary_candidates. rewrite NM, NC, D. cbn [match_find cpats_find bind app now later filter].
  destruct (no_later (find (p_trie p) (s_rest s) (s_prev s))) as [N1 N2]; [intros t H; exists (s_rest s); apply (ok_trie _ _ OK _ _ _ H)|].
  rewrite N1, N2. change (now []) with (@nil resolved). change (later []) with (@nil resolved). cbn [app now later filter]. rewrite app_nil_r. unfold prefer_digit. rewrite FW. unfold options.
  f_equal. f_equal. destruct (flag_at k_comp6 lim (s_pos s)); [reflexivity|]. destruct (flag_at k_dont_contract lim (s_pos s)); cbn [negb orb].
  - rewrite filter_two. reflexivity.
  - apply filter_ext'. intros y _. rewrite andb_true_r. reflexivity.
Qed.
Lemma unseen_none l : unseen [] l = l.
Proof. unfold unseen, was_seen. cbn. induction l as [|y l IH]; [reflexivity|]. cbn [filter]. rewrite IH. reflexivity. Qed.
Lemma loop_walk fuel : forall s out, s_delayed s = [] -> s_seen s = [] -> (forall q, s_last s = Some q -> q < s_pos s) ->
  primary_loop lower upper p ind lim input fuel s = Ok out -> exists out', out = s_out s ++ out' /\ walk (s_pos s) (s_prev s) (s_rest s) out'.
Proof.
  induction fuel as [|fuel IH]; intros s out D Sn L E; cbn [primary_loop] in E; [discriminate|].
  destruct (primary_step lower upper p ind lim input s) as [st| |] eqn:ES; try discriminate E. cbn [bind] in E.
  unfold primary_step in ES. rewrite candidates_options in ES by exact D. cbn [bind] in ES. rewrite Sn, unseen_none in ES.
  assert (IN : indicated ind s = nth (s_pos s) ind []).
  { unfold indicated. destruct (s_last s) as [q|]; [|reflexivity]. specialize (L q eq_refl). destruct (Nat.eqb_spec q (s_pos s)); [lia|reflexivity]. }
  rewrite IN in ES. unfold adjust_case in ES. rewrite FW in ES.
  assert (Go : forall t, pick (s_pos s) (s_prev s) (s_rest s) = Some (Ok t) ->
    forall e, st = PGo (mk_pstate (skipn (r_length t) (s_rest s)) [] e (last_char (r_input t)) [] (s_pos s + r_length t) (Some (s_pos s))
                   ((s_out s ++ nth (s_pos s) ind []) ++ [t])) ->
    exists out', out = s_out s ++ out' /\ walk (s_pos s) (s_prev s) (s_rest s) out').
  { intros t Ep e ->. destruct (pick_offer _ _ _ _ Ep) as (Q1 & Q2 & Q3).
    apply IH in E; cbn [s_delayed s_seen s_last s_pos s_prev s_rest s_out] in *; [|reflexivity|reflexivity|intros q [= <-]; lia].
    destruct E as (o & -> & W). exists (nth (s_pos s) ind [] ++ t :: o). split; [rewrite <- !app_assoc; reflexivity|]. constructor; assumption. }
  destruct (max_weight (nocross_candidates lower p lim (s_rest s) (s_prev s) (s_pos s))) as [n|] eqn:E1;
  destruct (max_weight (options (s_pos s) (s_prev s) (s_rest s))) as [c|] eqn:E2.
  - destruct (Nat.leb (r_weight c) (r_weight n)) eqn:E3.
    + assert (Ep : pick (s_pos s) (s_prev s) (s_rest s) = Some (Ok n)) by (unfold pick; rewrite E1, E2, E3; reflexivity).
      destruct (pick_offer _ _ _ _ Ep) as (Q1 & Q2 & Q3). destruct (Nat.eqb_spec (r_length n) 0); [lia|].
      injection ES as <-. apply (Go n Ep (s_env s)). reflexivity.
    + assert (Ep : pick (s_pos s) (s_prev s) (s_rest s) = Some (Ok c)) by (unfold pick; rewrite E1, E2, E3; reflexivity).
      destruct (pick_offer _ _ _ _ Ep) as (Q1 & Q2 & Q3). rewrite Q3 in ES. cbn [env_apply_all bind] in ES. destruct (Nat.eqb_spec (r_length c) 0); [lia|].
      injection ES as <-. eapply (Go c Ep). reflexivity.
  - assert (Ep : pick (s_pos s) (s_prev s) (s_rest s) = Some (Ok n)) by (unfold pick; rewrite E1, E2; reflexivity).
    destruct (pick_offer _ _ _ _ Ep) as (Q1 & Q2 & Q3). destruct (Nat.eqb_spec (r_length n) 0); [lia|].
    injection ES as <-. apply (Go n Ep (s_env s)). reflexivity.
  - assert (Ep : pick (s_pos s) (s_prev s) (s_rest s) = Some (Ok c)) by (unfold pick; rewrite E1, E2; reflexivity).
    destruct (pick_offer _ _ _ _ Ep) as (Q1 & Q2 & Q3). rewrite Q3 in ES. cbn [env_apply_all bind] in ES. destruct (Nat.eqb_spec (r_length c) 0); [lia|].
    injection ES as <-. eapply (Go c Ep). reflexivity.
  - destruct (s_rest s) as [|c r] eqn:ER.
    + injection ES as <-. injection E as <-. eexists. split; [reflexivity|]. constructor. unfold pick. rewrite E1, E2. reflexivity.
    + destruct (fallback_piece p c) as [t| |] eqn:EF; try discriminate ES. cbn [bind] in ES. injection ES as <-.
      assert (Ep : pick (s_pos s) (s_prev s) (c :: r) = Some (Ok t)) by (unfold pick; rewrite E1, E2, EF; reflexivity).
      apply (Go t Ep (s_env s)).
      assert (X : r_length t = 1 /\ r_input t = [c]).
      { unfold fallback_piece in EF. destruct (assoc c (p_chars p)) as [u|] eqn:Ea.
        - injection EF as <-. destruct (ok_chars _ _ OK c u Ea) as (H1 & H2 & H3 & H4). auto.
        - destruct (p_undefined p); [injection EF as <-; auto|]. destruct (handle_undefined (p_fallback p) c); try discriminate. injection EF as <-. auto. }
      destruct X as [-> ->]. cbn [skipn last_char map last]. rewrite Nat.add_1_r. reflexivity.
Qed.
Lemma run_walk out : primary_run lower upper p ind lim input = Ok out -> walk 0 None input out.
Proof.
  intros E. unfold primary_run in E. apply loop_walk in E; try reflexivity; [|intros q [=]]. destruct E as (o & -> & W). exact W.
Qed.
End Lim.

(** ** Two words *)
Variable sp : char.
Hypothesis LS : lower sp = [sp].
Hypothesis B1 : all_edges (blind sp) (p_trie p).
Hypothesis B2 : all_edges (blind sp) (p_nocross p).
Hypothesis B3 : all_edges (blind sp) (p_comp6 p).
Lemma nothing_found n : (forall rest prev t, In t (find n rest prev) -> trie_offer lower rest t) -> forall prev, find n [] prev = [].
Proof.
  intros H prev. destruct (find n [] prev) as [|t l] eqn:E; [reflexivity|]. exfalso. specialize (H [] prev t). rewrite E in H.
  destruct (H (or_introl eq_refl)) as (_ & H1 & H2 & _). cbn in H2. lia.
Qed.
Definition flags_from (k n : nat) (a b : pos_flags) : Prop := forall f q, q < n -> flag_at f a (k + q) = flag_at f b q.
(** the choice at a place of a word, in the text and alone *)
Lemma pick_part k n la lb a prev prev' more : flags_from k n la lb -> (more = [] \/ exists v, more = sp :: v) -> same_prev sp prev prev' -> forall pos,
  pos + length a = n -> (a = [] -> more = []) ->
  pick la (k + pos) prev' (a ++ more) = pick lb pos prev a.
Proof.
  intros F M SP pos N Z.
  assert (FE : forall n0, all_edges (blind sp) n0 -> find n0 (a ++ more) prev' = find n0 a prev).
  { intros n0 A. destruct M as [->|(v & ->)]; [rewrite app_nil_r; symmetry; apply (find_prev lower sp n0 A), SP|symmetry; apply (find_cut lower sp LS n0 A), SP]. }
  assert (FL : a = [] \/ forall f, flag_at f la (k + pos) = flag_at f lb pos).
  { destruct a; [left; reflexivity|right]. intros f. apply F. cbn [length] in N. lia. }
  assert (E1 : nocross_candidates lower p la (a ++ more) prev' (k + pos) = nocross_candidates lower p lb a prev pos).
  { unfold nocross_candidates. rewrite FE by exact B2. apply filter_ext'. intros t Ht. f_equal. unfold crosses_break.
    destruct (ok_nocross _ _ OK _ _ _ Ht) as (_ & L1 & L2 & _). unfold str, char in *.
    assert (G : forall m s, s + m <= n -> existsb (flag_at k_break la) (List.seq (k + s) m) = existsb (flag_at k_break lb) (List.seq s m)).
    { clear - F. induction m as [|m IH]; intros s H; [reflexivity|]. cbn [List.seq existsb]. rewrite F by lia. f_equal. rewrite <- Nat.add_succ_r. apply IH. lia. }
    apply G. lia. }
  assert (E2 : options la (k + pos) prev' (a ++ more) = options lb pos prev a).
  { unfold options. rewrite !FE by (exact B1 || exact B3). destruct FL as [->|FL].
    - rewrite (nothing_found _ (ok_trie _ _ OK)), (nothing_found _ (ok_comp6 _ _ OK)). cbn [filter]. destruct (flag_at _ _ _), (flag_at _ _ _); reflexivity.
    - rewrite !FL. destruct (flag_at k_comp6 lb pos); [reflexivity|]. apply filter_ext'. intros t _. unfold punc_ok. destruct (r_origin t) as [[]|]; rewrite ?FL; reflexivity. }
  unfold pick. rewrite E1, E2. destruct a as [|c a]; [|reflexivity]. rewrite Z by reflexivity. reflexivity.
Qed.
Definition signs_from (k n : nat) (a b : list (list resolved)) : Prop := forall q, q <= n -> nth (k + q) a [] = nth q b [].
Lemma walk_last k n la lb ia ib : flags_from k n la lb -> signs_from k n ia ib -> forall pos prev rest out, walk lb ib pos prev rest out ->
  pos + length rest = n -> forall prev', same_prev sp prev prev' -> walk la ia (k + pos) prev' rest out.
Proof.
  intros F G pos prev rest out W. induction W as [pos prev rest E|pos prev rest t out E W IH]; intros N prev' SP.
  - rewrite <- G by lia. constructor. pose proof (pick_part k n la lb rest prev prev' [] F (or_introl eq_refl) SP pos N (fun _ => eq_refl)) as X. rewrite app_nil_r in X. rewrite X. exact E.
  - rewrite <- G by lia. destruct (pick_offer _ _ _ _ _ E) as (Q1 & _). eapply WalkStep.
    + pose proof (pick_part k n la lb rest prev prev' [] F (or_introl eq_refl) SP pos N (fun _ => eq_refl)) as X. rewrite app_nil_r in X. rewrite X. exact E.
    + rewrite <- Nat.add_assoc. apply IH; [rewrite skipn_length; lia|left; reflexivity].
Qed.
Lemma pick_end lim pos prev rest : pick lim pos prev rest = None -> rest = [].
Proof.
  unfold pick. destruct (max_weight _), (max_weight _); try discriminate. destruct rest; [reflexivity|discriminate].
Qed.
Lemma pick_space lim pos prev v : pick lim pos prev (sp :: v) = Some (fallback_piece p sp).
Proof.
  assert (FE : forall n0, all_edges (blind sp) n0 -> (forall rest prev t, In t (find n0 rest prev) -> trie_offer lower rest t) -> find n0 (sp :: v) prev = []).
  { intros n0 A H. rewrite <- (nothing_found n0 H prev). symmetry. apply (find_cut lower sp LS n0 A []). left. reflexivity. }
  unfold pick, options, nocross_candidates. rewrite (FE _ B1 (ok_trie _ _ OK)), (FE _ B2 (ok_nocross _ _ OK)), (FE _ B3 (ok_comp6 _ _ OK)).
  cbn [filter]. destruct (flag_at _ _ _); reflexivity.
Qed.
Lemma walk_first n la lb ia ib v t out2 : flags_from 0 n la lb -> signs_from 0 n ia ib -> fallback_piece p sp = Ok t ->
  walk la ia (S n) (Some sp) v out2 -> r_length t = 1 -> r_input t = [sp] ->
  forall pos prev rest out, walk lb ib pos prev rest out -> pos + length rest = n ->
  walk la ia pos prev (rest ++ sp :: v) (out ++ t :: out2).
Proof.
  intros F G ET W2 T1 T2 pos prev rest out W. induction W as [pos prev rest E|pos prev rest u out E W IH]; intros N.
  - apply pick_end in E. subst rest. cbn [length app] in *. rewrite Nat.add_0_r in N. subst pos. rewrite <- G by lia. cbn [plus].
    eapply WalkStep; [rewrite pick_space, ET; reflexivity|]. rewrite T1, T2, Nat.add_1_r. exact W2.
  - destruct (pick_offer _ _ _ _ _ E) as (Q1 & _). rewrite <- G by lia. cbn [plus]. rewrite <- app_assoc. eapply WalkStep.
    + pose proof (pick_part 0 n la lb rest prev prev (sp :: v) F (or_intror (ex_intro _ v eq_refl)) (or_introl eq_refl) pos N) as X. cbn [plus] in X.
      etransitivity; [apply X|exact E]. intros ->. cbn in Q1. lia.
    + rewrite skipn_app. replace (r_length u - length rest) with 0 by lia. apply IH. rewrite skipn_length. lia.
Qed.
(** the trace of two words: those of the words with the separator's own piece between *)
Lemma walks_cut u v lw iw lu iu lv iv ow ou ov :
  flags_from 0 (length u) lw lu -> flags_from (S (length u)) (length v) lw lv ->
  signs_from 0 (length u) iw iu -> signs_from (S (length u)) (length v) iw iv ->
  walk lw iw 0 None (u ++ sp :: v) ow -> walk lu iu 0 None u ou -> walk lv iv 0 None v ov ->
  exists t, fallback_piece p sp = Ok t /\ ow = ou ++ t :: ov.
Proof.
  intros F1 F2 G1 G2 Ww Wu Wv.
  destruct (fallback_ok' lower p OK sp) as (t & ET & _ & T1 & T2 & _). exists t. split; [exact ET|].
  eapply walk_same; [exact Ww|]. eapply walk_first; eauto.
  pose proof (walk_last (S (length u)) (length v) lw lv iw iv F2 G2 0 None v ov Wv eq_refl (Some sp)) as X. rewrite Nat.add_0_r in X. apply X. right. auto.
Qed.
End Walk.

(** ** Signs and restrictions *)
Lemma cls_chars_has m k c : mem c (cls_chars m k) = cls_has m k c.
Proof.
  unfold cls_has, cls_get. destruct (cls_chars m k); reflexivity.
Qed.
Lemma class_blind (k : classes) sp ks : (forall c, cls_has k c sp = true <-> c = CSpace) ->
  rc_matches (rc_resolve k ks) (Some sp) = rc_matches (rc_resolve k ks) None.
Proof.
  intros H. apply Bool.eq_iff_eq_true. rewrite !rc_matches_spec. unfold neighbour_in. split.
  - intros (c & Hc & E). apply H in E. subst c. exact Hc.
  - intros Hc. exists CSpace. split; [exact Hc|]. apply H. reflexivity.
Qed.
Lemma path_blind (k : classes) sp a : (forall c, cls_has k c sp = true <-> c = CSpace) -> ~ In sp (i_from a) ->
  Forall (blind sp) (ins_path k Forward a).
Proof.
  intros H N. unfold ins_path. repeat (apply Forall_app; split); apply Forall_forall; intros e He.
  - apply in_flat_map in He. destruct He as ([c|c] & _ & He); [destruct He as [<-|[]]; apply class_blind, H|destruct He].
  - apply in_map_iff in He. destruct He as ([ks|ks] & <- & _); apply class_blind, H.
  - apply in_map_iff in He. destruct He as (c & <- & Hc). cbn. intros ->. exact (N Hc).
  - apply in_map_iff in He. destruct He as ([ks|ks] & <- & _); apply class_blind, H.
  - apply in_flat_map in He. destruct He as ([c|c] & _ & He); [destruct He|destruct He as [<-|[]]; apply class_blind, H].
Qed.
Lemma word_text x r a : In a (word_entries x r) -> text_of r = Some (i_from a).
Proof.
  unfold word_entries. assert (A : forall A (u : tres A) (l : A -> list ins_args), In a match (tdo v <- u; TOk (l v)) with TOk k => k | _ => [] end -> exists v, u = TOk v /\ In a (l v)).
  { intros A u l H. destruct u; try destruct H. eauto. }
  intros I. destruct r; cbn [word_insertions] in I; try (destruct I; fail); try (apply A in I; destruct I as (v & _ & I));
    try (destruct (forallb _ _)); repeat (destruct I as [<-|I]; [reflexivity|]); destruct I.
Qed.
Section Table.
Variable is_alphabetic : char -> bool.
Variable compat : bool.
Variable read_dictionary : str -> tres hyph.
Variable x : context.
Variable table : list rule.
Variable lower upper : char -> list char.
Variable sort : list event -> res (list event).
Variable m : main_table.
Variable sp : char.
Hypothesis B : main_built is_alphabetic compat read_dictionary Forward x table m.
Hypothesis DR : dictionaries_read read_dictionary.
Hypothesis EX : context_compile is_alphabetic compat table = TOk x.
Hypothesis W : wordwise lower compat table sp.
Lemma blank k : cls_has (x_chars x) k sp = true <-> k = CSpace.
Proof. rewrite (compile_classes _ _ _ _ _ _ EX). apply (ww_blank _ _ _ _ W). Qed.
Notation p := (mt_rules m).
Lemma tries_blind : all_edges (blind sp) (p_trie p) /\ all_edges (blind sp) (p_nocross p) /\ all_edges (blind sp) (p_comp6 p) /\ p_match p = [] /\ p_context p = [] /\ p_dir p = Forward.
Proof.
  destruct (mb_rules _ _ _ _ _ _ _ B) as (p0 & E & S1 & S2 & S3 & _ & E2 & E3 & _ & _ & E6 & _). destruct (compile_spec _ _ _ _ _ _ E) as (I1 & I2 & I3 & _ & I5 & I6 & _ & _ & I9 & _).
  assert (Q : forall l n n', shuffle n n' -> trie_insert_all compat (trie_ctx Forward x) Forward node_empty l = TOk n -> (forall a, In a l -> ~ In sp (i_from a)) -> all_edges (blind sp) n').
  { intros l n n' S T H. apply (edges_shuffle _ n n' S). eapply edges_build; [|exact T]. intros a Ha. apply path_blind; [exact blank|auto]. }
  assert (T : forall r a, In r table -> In a (word_entries x r) -> ~ In sp (i_from a)).
  { intros r a Hr Ha. apply word_text in Ha. exact (ww_text _ _ _ _ W r _ Hr Ha). }
  split; [|split; [|split; [|split; [|split]]]].
  - eapply Q; [exact S1|exact I1|]. intros a Ha. unfold main_entries in Ha. cbn [is_backward backward_only] in Ha. apply in_app_iff in Ha. destruct Ha as [Ha|Ha].
    + exfalso. apply in_flat_map in Ha. destruct Ha as (r & _ & []).
    + apply in_flat_map in Ha. destruct Ha as (r & Hr & Ha). unfold main_entries_of in Ha. cbn [is_backward backward_only app] in Ha. apply in_app_iff in Ha. destruct Ha as [Ha|Ha].
      * exfalso. destruct r; destruct Ha.
      * destruct (is_nocross r); [destruct Ha|]. eapply T; eauto.
  - eapply Q; [exact S2|exact I2|]. intros a Ha. unfold nocross_entries in Ha. apply in_flat_map in Ha. destruct Ha as (r & Hr & Ha). destruct (is_nocross r); [|destruct Ha]. eapply T; eauto.
  - eapply Q; [exact S3|exact I3|]. intros a Ha. unfold comp6_entries in Ha. apply in_flat_map in Ha. destruct Ha as (r & Hr & Ha).
    destruct r; try (destruct Ha; fail). cbn [comp6_entries_of] in Ha. destruct (dots_of x dots chars); try (destruct Ha; fail). destruct Ha as [<-|[]].
    apply (ww_text _ _ _ _ W _ _ Hr). reflexivity.
  - rewrite E2, I5. destruct (flat_map (match_entries x) table) as [|c l] eqn:EE; [reflexivity|]. exfalso.
    assert (I : In c (flat_map (match_entries x) table)) by (rewrite EE; left; reflexivity). apply in_flat_map in I. destruct I as (r & Hr & I).
    apply (ww_rules _ _ _ _ W) in Hr. destruct r; try destruct I; discriminate.
  - rewrite E3, I6. destruct (flat_map (context_entries x) table) as [|c l] eqn:EE; [reflexivity|]. exfalso.
    assert (I : In c (flat_map (context_entries x) table)) by (rewrite EE; left; reflexivity). apply in_flat_map in I. destruct I as (r & Hr & I).
    apply (ww_rules _ _ _ _ W) in Hr. destruct r; try destruct I; discriminate.
  - rewrite E6. exact I9.
Qed.
(** classes *)
Lemma not_of k : k <> CSpace -> mem sp (cls_chars (x_chars x) k) = false.
Proof.
  intros N. rewrite cls_chars_has. destruct (cls_has (x_chars x) k sp) eqn:E; [|reflexivity]. apply blank in E. congruence.
Qed.
Lemma not_mem l : ~ In sp l -> mem sp l = false.
Proof. intros N. destruct (mem sp l) eqn:E; [|reflexivity]. apply mem_In in E. contradiction. Qed.
Lemma no_extra : mem sp (extra_numeric table) = false.
Proof.
  apply not_mem. unfold extra_numeric. destruct (last_some table _) as [l|] eqn:E; [|intros []]. apply last_some_In in E. destruct E as (r & Hr & E).
  pose proof (ww_modes _ _ _ _ W r Hr) as N. destruct r; try discriminate. injection E as ->. exact N.
Qed.
Lemma no_mid : mem sp (mid_numeric table) = false.
Proof.
  apply not_mem. unfold mid_numeric. intros I. apply in_app_iff in I. rewrite !in_flat_map in I. destruct I as [(r & Hr & I)|(r & Hr & I)].
  - pose proof (ww_modes _ _ _ _ W r Hr) as N. destruct r; try destruct I; try exact (N (or_introl H)); try contradiction.
  - destruct r; try (destruct I; fail). exact (ww_text _ _ _ _ W _ _ Hr eq_refl I).
Qed.
(** restrictions *)
Lemma nth_marks u s i b : nth i (numeric_marks u b s) false = true -> i < length s.
Proof.
  revert i b. induction s as [|c s IH]; intros i b H; [destruct i; discriminate|]. destruct i as [|i]; [cbn; lia|]. cbn [numeric_marks length] in *.
  destruct (mem c _); [cbn [nth] in H; apply IH in H; lia|]. destruct (_ && _)%bool; [cbn [nth] in H; apply IH in H; lia|]. destruct (_ && _)%bool; cbn [nth] in H; apply IH in H; lia.
Qed.
Lemma marks_length u s : forall b, length (numeric_marks u b s) = length s.
Proof.
  induction s as [|c s IH]; intros b; [reflexivity|]. cbn [numeric_marks length]. destruct (mem c _); [cbn; rewrite IH; reflexivity|].
  destruct (_ && _)%bool; [cbn; rewrite IH; reflexivity|]. destruct (_ && _)%bool; cbn; rewrite IH; reflexivity.
Qed.
Lemma breaks_inside n bs : forall start l, mark_breaks n start bs = Ok l -> Forall (fun q => q < n) l.
Proof.
  induction bs as [|b bs IH]; intros start l E; cbn [mark_breaks] in E; [injection E as <-; constructor|].
  destruct (mark_breaks n (S start) bs) as [l0| |] eqn:E0; try discriminate E. cbn [bind] in E. apply IH in E0. destruct b; [|injection E as <-; exact E0].
  destruct (Nat.ltb_spec start n); [|discriminate E]. injection E as <-. constructor; assumption.
Qed.
Lemma hyphens_inside h letters chars : forall s pos ws l, hyphen_loop h letters chars s pos ws = Ok l -> Forall (fun q => q < length chars) l.
Proof.
  assert (M : forall a b l, mark_word h chars a b = Ok l -> Forall (fun q => q < length chars) l).
  { intros a b l E. unfold mark_word in E. destruct (break_points _ _); try discriminate E. cbn [bind] in E. eapply breaks_inside, E. }
  induction s as [|c s IH]; intros pos ws l E; cbn [hyphen_loop] in E.
  - destruct ws; [eapply M, E|injection E as <-; constructor].
  - destruct (mem c letters); [eapply IH, E|]. destruct ws; [|eapply IH, E]. destruct (mark_word h chars n pos) as [a| |] eqn:Ea; try discriminate E. cbn [bind] in E.
    destruct (hyphen_loop h letters chars s (S pos) None) as [b| |] eqn:Eb; try discriminate E. cbn [bind] in E. injection E as <-. apply Forall_app. split; [eapply M, Ea|eapply IH, Eb].
Qed.
Lemma mem_nat_In q l : mem_nat q l = true <-> In q l.
Proof. unfold mem_nat. rewrite existsb_exists. split; [intros (y & Hy & E); apply Nat.eqb_eq in E; subst; exact Hy|intros H; exists q; split; [exact H|apply Nat.eqb_refl]]. Qed.
Notation kc := (build_constrainers is_alphabetic read_dictionary Forward x table).
Lemma flag_map f g n i : i < n -> flag_at f (map g (List.seq 0 n)) i = f (g i).
Proof. intros L. unfold flag_at. rewrite nth_error_map. rewrite (nth_error_nth' _ 0) by (rewrite seq_length; exact L). cbn. rewrite seq_nth by exact L. reflexivity. Qed.
Lemma limits_cut u v lu lv lw : limits_of kc u [] = Ok lu -> limits_of kc v [] = Ok lv -> limits_of kc (u ++ sp :: v) [] = Ok lw ->
  flags_from 0 (length u) lw lu /\ flags_from (S (length u)) (length v) lw lv.
Proof.
  unfold limits_of. cbn [build_constrainers kc_numeric kc_caps kc_number kc_hyphen kc_punct]. unfold build_caps, build_number, backward_dots. cbn [is_backward optional bind fst snd].
  set (hy := build_hyphen read_dictionary Forward x table).
  assert (HL : forall h letters, hy = Some (h, letters) -> mem sp letters = false).
  { intros h letters E. unfold hy, build_hyphen in E. cbn [is_backward] in E. destruct (last_some table _); [|discriminate]. injection E as _ <-. apply not_of. discriminate. }
  assert (HC : forall bu bv, optional hy (fun k => hyphen_marks (fst k) (snd k) u) [] = Ok bu -> optional hy (fun k => hyphen_marks (fst k) (snd k) v) [] = Ok bv ->
     optional hy (fun k => hyphen_marks (fst k) (snd k) (u ++ sp :: v)) [] = Ok (bu ++ moved1 (S (length u)) bv) /\ Forall (fun q => q < length u) bu).
  { intros bu bv. destruct hy as [[h letters]|]; cbn [optional fst snd].
    - intros E1 E2. split; [eapply hyphen_cut; [eapply HL; reflexivity| |]; eassumption|]. eapply hyphens_inside, E1.
    - intros [= <-] [= <-]. split; [reflexivity|constructor]. }
  destruct (optional hy (fun k => hyphen_marks (fst k) (snd k) u) []) as [bu| |] eqn:Eu; try discriminate.
  destruct (optional hy (fun k => hyphen_marks (fst k) (snd k) v) []) as [bv| |] eqn:Ev; try discriminate.
  destruct (HC bu bv eq_refl eq_refl) as [Ew IB]. rewrite Ew. cbn [bind]. intros [= <-] [= <-] [= <-].
  assert (N1 : forall q, q < length u -> nth q (match build_numeric x table with Some k => numeric_marks k false (u ++ sp :: v) | None => [] end) false =
                nth q (match build_numeric x table with Some k => numeric_marks k false u | None => [] end) false).
  { intros q L. unfold build_numeric. destruct (is_empty (digits x)); [reflexivity|]. rewrite (marks_cut sp); cbn [nu_digits nu_extra nu_mid]; [|apply not_of; discriminate|apply no_extra|apply no_mid].
    apply app_nth1. rewrite marks_length. exact L. }
  assert (N2 : forall q, nth (S (length u) + q) (match build_numeric x table with Some k => numeric_marks k false (u ++ sp :: v) | None => [] end) false =
                nth q (match build_numeric x table with Some k => numeric_marks k false v | None => [] end) false).
  { intros q. unfold build_numeric. destruct (is_empty (digits x)); [destruct q; reflexivity|]. rewrite (marks_cut sp); cbn [nu_digits nu_extra nu_mid]; [|apply not_of; discriminate|apply no_extra|apply no_mid].
    rewrite app_nth2 by (rewrite marks_length; lia). rewrite marks_length. replace (S (length u) + q - length u) with (S q) by lia. reflexivity. }
  assert (P1 : forall k, build_punct Forward x table = Some k -> mem sp (pc_word k) = false /\ mem sp (pc_space k) = true /\ mem sp (pc_letters k) = false).
  { intros k E. unfold build_punct in E. destruct (_ && _)%bool; [|discriminate]. injection E as <-. cbn [pc_word pc_space pc_letters]. split; [|split].
    - unfold mem. rewrite existsb_app. apply Bool.orb_false_iff. split; apply not_of; discriminate.
    - rewrite cls_chars_has. apply blank. reflexivity.
    - apply not_of. discriminate. }
  assert (BM1 : forall q, q < length u -> mem_nat q (bu ++ moved1 (S (length u)) bv) = mem_nat q bu).
  { intros q L. apply Bool.eq_iff_eq_true. rewrite !mem_nat_In, in_app_iff. split; [|auto]. intros [H|H]; [exact H|]. apply in_map_iff in H. destruct H as (z & <- & _). lia. }
  assert (BM2 : forall q, mem_nat (S (length u) + q) (bu ++ moved1 (S (length u)) bv) = mem_nat q bv).
  { intros q. apply Bool.eq_iff_eq_true. rewrite !mem_nat_In, in_app_iff. split.
    - intros [H|H]; [rewrite Forall_forall in IB; apply IB in H; lia|]. apply in_map_iff in H. destruct H as (z & E & Hz). replace q with z by lia. exact Hz.
    - intros H. right. apply in_map_iff. exists q. auto. }
  unfold str, char in *.
  split; intros f q L; (rewrite !flag_map; [|exact L|rewrite app_length; cbn [length]; lia]); f_equal.
  - cbn [plus]. rewrite N1, BM1 by exact L. f_equal; try reflexivity;
    (destruct (build_punct Forward x table) as [k|] eqn:Ek; [|reflexivity]; destruct (P1 k eq_refl) as (H1 & H2 & H3); apply (punct_left k sp H1 H2 H3 u v q L)).
  - rewrite N2, BM2. f_equal; try reflexivity;
    (destruct (build_punct Forward x table) as [k|] eqn:Ek; [|reflexivity]; destruct (P1 k eq_refl) as (H1 & H2 & H3); apply (punct_right k sp H1 H2 H3 u v q)).
Qed.
(** signs *)
Notation ind := (mt_indicators m).
Lemma no_events us : forall k chars, emph_events us k chars [] = [].
Proof.
  induction us as [|e us IH]; intros k chars; cbn [emph_events]; [reflexivity|]. rewrite IH, app_nil_r. unfold emph_emit, active_runs.
  assert (G : forall n q, runs_from (active_at e chars []) n q None = []); [|rewrite G; reflexivity].
  induction n as [|n IHn]; intros q; cbn [runs_from]; [reflexivity|]. unfold active_at at 1. cbn [existsb andb]. apply IHn.
Qed.
Lemma built_parts : in_numeric ind = build_numeric_ind x table /\ in_caps ind = build_caps_ind x table /\ in_letter ind = None /\
  forall k, in_nocont ind = Some k -> exists order dots r n, permuting order /\ contraction_trie compat x table order dots r = TOk n /\ shuffle n (no_trie k).
Proof.
  destruct (mb_indicators _ _ _ _ _ _ _ B) as (o1 & o2 & i0 & O1 & O2 & EB & E1 & E2 & E3 & E4 & E5 & E6).
  unfold build_indicators in EB. destruct (build_letter_ind compat x table o1) as [li| |] eqn:EL; try discriminate. cbn [tbind] in EB.
  destruct (build_nocont_ind compat x table o2) as [nc| |] eqn:EN; try discriminate. cbn [tbind] in EB. injection EB as <-.
  cbn [in_comp in_emph in_numeric in_caps in_letter in_nocont] in *. split; [exact E3|]. split; [exact E4|]. split.
  - unfold build_letter_ind in EL. destruct (last_rule table _) as [[dots r]|] eqn:ER.
    + apply last_rule_In in ER. destruct ER as [Hr ER]. apply (ww_rules _ _ _ _ W) in Hr. destruct r; discriminate.
    + injection EL as <-. destruct (in_letter ind); [destruct E5|reflexivity].
  - intros k Ek. rewrite Ek in E6. destruct nc as [c|]; [|destruct E6]. destruct E6 as [S _]. unfold build_nocont_ind in EN.
    destruct (last_rule table _) as [[dots r]|]; [|discriminate]. destruct (is_empty (contractions table)); [discriminate|].
    destruct (contraction_trie compat x table o2 dots r) as [n| |] eqn:ET; try discriminate. cbn [tbind] in EN. injection EN as <-. cbn [no_trie] in S.
    exists o2, dots, r, n. auto.
Qed.
Lemma nocont_trie k : in_nocont ind = Some k -> all_edges (blind sp) (no_trie k) /\ forall prev, find_translations lower (no_trie k) [] prev = [].
Proof.
  intros E. destruct built_parts as (_ & _ & _ & N). destruct (N k E) as (order & dots & r & n & O & T & S). unfold contraction_trie in T.
  assert (C : forall a, In a (map (contraction_args dots r) (order (contractions table))) -> exists t, i_from a = t /\ In (RContraction t) table).
  { intros a Ha. apply in_map_iff in Ha. destruct Ha as (t & <- & Ht). exists t. split; [reflexivity|]. apply (Permutation_in _ (O _)) in Ht. unfold contractions in Ht.
    apply nodup_In, in_flat_map in Ht. destruct Ht as (q & Hq & Ht). destruct q; try (destruct Ht; fail). destruct Ht as [<-|[]]. exact Hq. }
  split.
  - apply (edges_shuffle _ n _ S). eapply edges_build; [|exact T]. intros a Ha. apply path_blind; [exact blank|].
    destruct (C a Ha) as (t & -> & Ht). apply (ww_text _ _ _ _ W _ _ Ht). reflexivity.
  - intros prev. destruct (find_translations lower (no_trie k) [] prev) as [|t l] eqn:EF; [reflexivity|]. exfalso.
    assert (I : In t (find_translations lower (no_trie k) [] prev)) by (rewrite EF; left; reflexivity).
    assert (WO : forall a, In a (map (contraction_args dots r) (order (contractions table))) -> well_oriented a).
    { intros a Ha. apply in_map_iff in Ha. destruct Ha as (t0 & <- & _). split; intros ks; cbn; intros; try discriminate; eauto. }
    apply (C15_lookup_exact lower compat (x_chars x) Forward _ _ _ [] prev t WO T S) in I.
    assert (Z : trie_offer lower [] t) by (eapply (offer_ok compat Forward x lower); [exact WO|exists n; exact T|exact I]).
    destruct Z as (_ & Z1 & Z2 & _). cbn in Z2. lia.
Qed.
Lemma here_snd {A} k q (l : list (nat * A)) : map snd (moved k (here q l)) = map snd (here q l).
Proof. apply moved_snd. Qed.
Lemma caps_unsorted chars l : caps_placed ind chars = Ok l -> exists raw, (forall q, here q l = here q raw) /\
  match in_caps ind with Some c => if caps_indicating c then caps_words c chars (find_words c chars) [] 0 None = Ok raw else raw = [] | None => raw = [] end.
Proof.
  unfold caps_placed. destruct (in_caps ind) as [c|]; [|intros [= <-]; exists []; auto]. unfold caps_precompute. destruct (caps_indicating c); [|intros [= <-]; exists []; auto].
  destruct (caps_words c chars (find_words c chars) [] 0 None) as [raw| |]; try discriminate. cbn [bind]. intros [= <-]. exists raw. split; [intros q; apply sort_pos_here|reflexivity].
Qed.
Lemma last_none {A} (f : rule -> option A) : (forall r, In r table -> f r = None) -> last_some table f = None.
Proof.
  intros H. destruct (last_some table f) as [a|] eqn:E; [|reflexivity]. apply last_some_In in E. destruct E as (r & Hr & E). rewrite H in E by exact Hr. discriminate.
Qed.
Lemma caps_apart u v lu lv lw : caps_placed ind u = Ok lu -> caps_placed ind v = Ok lv -> caps_placed ind (u ++ sp :: v) = Ok lw ->
  forall q, here q lw = here q (lu ++ moved (S (length u)) lv).
Proof.
  intros Eu Ev Ew. apply caps_unsorted in Eu, Ev, Ew. destruct Eu as (ru & Hu & Eu), Ev as (rv & Hv & Ev), Ew as (rw & Hw & Ew).
  assert (R : rw = ru ++ moved (S (length u)) rv).
  { destruct (in_caps ind) as [c|] eqn:Ec; [|subst; reflexivity]. destruct (caps_indicating c); [|subst; reflexivity].
    destruct built_parts as (_ & C & _). rewrite Ec in C. symmetry in C. unfold build_caps_ind in C. match type of C with (if ?b then _ else _) = _ => destruct b; [|discriminate] end.
    assert (NB : ui_beg c = None /\ ui_begphrase c = None /\ ui_letters c = cls_chars (x_chars x) CLetter /\
       ui_mode c = match last_some table (fun r => match r with RCapsmodechars cs => Some cs | _ => None end) with Some cs => cs | None => [] end).
    { injection C as <-. cbn [ui_beg ui_begphrase ui_letters ui_mode]. split; [|split; [|auto]].
      - apply last_none. intros r Hr. apply (ww_rules _ _ _ _ W) in Hr. destruct r; try discriminate Hr; reflexivity.
      - apply last_none. intros r Hr. apply (ww_rules _ _ _ _ W) in Hr. destruct r; try discriminate Hr; reflexivity. }
    destruct NB as (NB & NP & LE & MO). eapply (caps_cut c NB NP sp); eauto. unfold is_word_char, is_letter. rewrite LE, MO. apply Bool.orb_false_iff. split; [apply not_of; discriminate|].
    apply not_mem. destruct (last_some table _) as [cs|] eqn:EL; [|intros []]. apply last_some_In in EL. destruct EL as (r & Hr & EL).
    pose proof (ww_modes _ _ _ _ W r Hr) as N. destruct r; try discriminate. injection EL as ->. exact N. }
  intros q. unfold placed in *. rewrite Hw, R, !here_app. rewrite (Hu q). f_equal.
  destruct (Nat.le_gt_cases (S (length u)) q) as [L|L].
  - replace q with (S (length u) + (q - S (length u))) by lia. rewrite !here_moved, Hv. reflexivity.
  - rewrite !here_none; [reflexivity| |]; intros y Hy; apply in_map_iff in Hy; destruct Hy as (z & <- & _); cbn [fst]; lia.
Qed.
Lemma signs_plain chars i : indications_of lower sort ind chars [] = Ok i -> exists caps, caps_placed ind chars = Ok caps /\
     Forall (fun y => fst y <= length chars) caps /\
     forall q, q <= length chars -> nth q i [] = signs_here q (opt_placed (in_numeric ind) (fun k => numeric_precompute k chars)) ++ signs_here q caps ++
        signs_here q (opt_placed (in_nocont ind) (fun k => nocont_precompute lower k chars)).
Proof.
  intros E. destruct (indications_spec compat x table ind lower sort chars [] (mb_indicators _ _ _ _ _ _ _ B)) as (em & caps & i' & E1 & E2 & E3 & _ & E5 & _); [left; rewrite no_events; cbn; lia|].
    rewrite E in E3. injection E3 as <-. exists caps. split; [exact E2|]. split.
  - unfold caps_placed in E2. destruct (in_caps ind) as [c|]; [|injection E2 as <-; constructor]. destruct (caps_total c chars) as (l & El & F). rewrite E2 in El. injection El as <-.
      eapply Forall_impl; [|exact F]. intros y [H _]. exact H.
  - intros q L. rewrite E5 by exact L. unfold signs_at. destruct built_parts as (_ & _ & NL & _). rewrite NL. unfold emph_precompute in E1. rewrite no_events in E1. cbn in E1. injection E1 as <-.
      destruct (in_comp ind); cbn [opt_placed]; reflexivity.
Qed.
Lemma indications_cut u v iu iv iw : indications_of lower sort ind u [] = Ok iu -> indications_of lower sort ind v [] = Ok iv ->
  indications_of lower sort ind (u ++ sp :: v) [] = Ok iw -> signs_from 0 (length u) iw iu /\ signs_from (S (length u)) (length v) iw iv.
Proof.
  intros Eu Ev Ew. destruct (signs_plain _ _ Eu) as (cu & Cu & Bu & Nu), (signs_plain _ _ Ev) as (cv & Cv & Bv & Nv), (signs_plain _ _ Ew) as (cw & Cw & Bw & Nw).
  pose proof (caps_apart u v cu cv cw Cu Cv Cw) as CA.
  assert (NU : exists nu nv, opt_placed (in_numeric ind) (fun k => numeric_precompute k u) = nu /\ opt_placed (in_numeric ind) (fun k => numeric_precompute k v) = nv /\
     opt_placed (in_numeric ind) (fun k => numeric_precompute k (u ++ sp :: v)) = nu ++ moved (S (length u)) nv /\ forall y, In y nu -> fst y <= length u).
  { destruct built_parts as (N & _). rewrite N. unfold build_numeric_ind. destruct (last_some table _) as [t|]; [|exists [], []; cbn; repeat split; intros y []].
    destruct (is_empty (digits x)); [exists [], []; cbn; repeat split; intros y []|]. cbn [opt_placed]. eexists. eexists. split; [reflexivity|]. split; [reflexivity|]. split.
    - unfold numeric_precompute. rewrite (numeric_cut sp); cbn [ni_chars nu_digits nu_extra nu_mid ni_stop];
        [|apply not_of; discriminate|apply no_extra|apply no_mid|]. 
      + f_equal. cbn [plus]. etransitivity; [|apply numeric_moved]. rewrite Nat.add_0_r. reflexivity.
      + apply not_mem. destruct (last_some table (fun r => match r with RNumericnocontchars cs => Some cs | _ => None end)) as [cs|] eqn:EL; [|intros []].
        apply last_some_In in EL. destruct EL as (r & Hr & EL). pose proof (ww_modes _ _ _ _ W r Hr) as NN. destruct r; try discriminate. injection EL as ->. exact NN.
    - intros [q s] H. apply numeric_signs_spec in H. cbn [fst]. destruct H as [[_ ((c & H & _) & _)]|(_ & (_ & _ & _ & L) & _)]; [|lia].
      assert (q < length u) by (apply nth_error_Some; congruence). lia. }
  assert (NO : exists nu nv, opt_placed (in_nocont ind) (fun k => nocont_precompute lower k u) = nu /\ opt_placed (in_nocont ind) (fun k => nocont_precompute lower k v) = nv /\
     opt_placed (in_nocont ind) (fun k => nocont_precompute lower k (u ++ sp :: v)) = nu ++ moved (S (length u)) nv /\ forall y, In y nu -> fst y <= length u).
  { destruct (in_nocont ind) as [k|] eqn:Ek; [|exists [], []; cbn; repeat split; intros y []]. destruct (nocont_trie k Ek) as [T1 T2]. cbn [opt_placed]. eexists. eexists. split; [reflexivity|]. split; [reflexivity|]. split.
    - unfold nocont_precompute. rewrite (contraction_cut lower sp (ww_lower _ _ _ _ W) _ T1 T2), map_app. f_equal.
      pose proof (contraction_moved lower (no_trie k) (S (length u)) v None 0) as X. rewrite Nat.add_0_r in X. cbn [plus]. unfold str, char in *. rewrite X. unfold moved, moved1. rewrite !map_map. reflexivity.
    - intros [q s] H. apply nocont_spec in H. cbn [fst]. lia. }
  destruct NU as (nu & nv & U1 & U2 & U3 & U4), NO as (ou & ov & O1 & O2 & O3 & O4). rewrite U1, O1 in Nu. rewrite U2, O2 in Nv. rewrite U3, O3 in Nw.
  unfold str, char in *. unfold signs_here in *. unfold placed in *. rewrite Forall_forall in Bu.
  split; intros q L.
  - cbn [plus]. rewrite Nw by (rewrite app_length; lia). rewrite Nu by exact L. rewrite CA, !here_left by exact L. reflexivity.
  - rewrite Nw by (rewrite app_length; cbn [length]; lia). rewrite Nv by exact L. rewrite CA, !here_right by assumption. rewrite !here_snd. reflexivity.
Qed.
(** the trace of a text of two words *)
Lemma scanner_none : mt_scanner m = None.
Proof.
  rewrite (mb_scanner _ _ _ _ _ _ _ B). unfold build_scanner. destruct (compbrl_triggers table) as [|k l] eqn:E; [reflexivity|]. exfalso.
  assert (I : In k (compbrl_triggers table)) by (rewrite E; left; reflexivity). unfold compbrl_triggers in I. apply in_flat_map in I.
  destruct I as (r & Hr & I). apply (ww_rules _ _ _ _ W) in Hr. destruct r; try destruct I; discriminate.
Qed.
Lemma trace_total input : exists out, main_trace lower upper sort m input [] = Ok out.
Proof.
  apply (pass_total _ _ _ _ _ _ lower upper sort m B DR input []).
  - intros k q E. rewrite scanner_none in E. discriminate.
  - intros sp' E. unfold enriched in E. rewrite scanner_none in E. injection E as <-. left. rewrite no_events. cbn. lia.
Qed.
Notation trace := (main_trace lower upper sort m).
Lemma trace_cut u v : exists ou ov t, trace u [] = Ok ou /\ trace v [] = Ok ov /\ fallback_piece p sp = Ok t /\ trace (u ++ sp :: v) [] = Ok (ou ++ t :: ov).
Proof.
  destruct (trace_total u) as (ou & Eu), (trace_total v) as (ov & Ev), (trace_total (u ++ sp :: v)) as (ow & Ew).
  exists ou, ov. pose proof Eu as Tu. pose proof Ev as Tv. pose proof Ew as Tw.
  unfold main_trace in Eu, Ev, Ew. unfold enriched in Eu, Ev, Ew. rewrite scanner_none in Eu, Ev, Ew. cbn [bind] in Eu, Ev, Ew. rewrite (mb_constrainers _ _ _ _ _ _ _ B) in Eu, Ev, Ew.
  destruct (indications_of lower sort ind u []) as [iu| |] eqn:Iu; try discriminate. cbn [bind] in Eu. destruct (limits_of kc u []) as [lu| |] eqn:Lu; try discriminate. cbn [bind] in Eu.
  destruct (indications_of lower sort ind v []) as [iv| |] eqn:Iv; try discriminate. cbn [bind] in Ev. destruct (limits_of kc v []) as [lv| |] eqn:Lv; try discriminate. cbn [bind] in Ev.
  destruct (indications_of lower sort ind (u ++ sp :: v) []) as [iw| |] eqn:Iw; try discriminate. cbn [bind] in Ew. destruct (limits_of kc (u ++ sp :: v) []) as [lw| |] eqn:Lw; try discriminate. cbn [bind] in Ew.
  destruct (limits_cut _ _ _ _ _ Lu Lv Lw) as [F1 F2]. destruct (indications_cut _ _ _ _ _ Iu Iv Iw) as [G1 G2].
  destruct tries_blind as (B1 & B2 & B3 & NM & NC & FW). pose proof (compiled_ok compat read_dictionary Forward x table lower _ (mb_rules _ _ _ _ _ _ _ B)) as OK.
  apply (run_walk lower upper p OK NM NC FW) in Eu, Ev, Ew.
  destruct (walks_cut lower p OK sp (ww_lower _ _ _ _ W) B1 B2 B3 u v lw iw lu iu lv iv ow ou ov F1 F2 G1 G2 Ew Eu Ev) as (t & ET & ->).
  exists t. auto.
Qed.
Lemma trace_empty : trace [] [] = Ok [].
Proof.
  destruct (trace_total []) as (o & E). rewrite E. f_equal. unfold main_trace, enriched in E. rewrite scanner_none in E. cbn [bind] in E.
  destruct (indications_of lower sort ind [] []) as [i| |] eqn:Ei; try discriminate E. cbn [bind] in E.
  destruct (limits_of (mt_constrainers m) [] []) as [l| |]; try discriminate E. cbn [bind] in E.
  destruct tries_blind as (_ & _ & _ & NM & NC & FW). pose proof (compiled_ok compat read_dictionary Forward x table lower _ (mb_rules _ _ _ _ _ _ _ B)) as OK.
  apply (run_walk lower upper p OK NM NC FW) in E. inversion E as [pos prev rest PE|pos prev rest t o' PE _]; subst.
  - destruct (signs_plain [] i Ei) as (caps & C & _ & N). rewrite N by (cbn; lia). apply caps_unsorted in C. destruct C as (raw & H & C). unfold signs_here. rewrite H.
    assert (raw = []) as ->.
    { destruct (in_caps ind) as [c|]; [|exact C]. destruct (caps_indicating c); [|exact C]. cbn in C. injection C as <-. reflexivity. }
    destruct (in_numeric ind), (in_nocont ind); reflexivity.
  - apply (pick_offer lower p OK) in PE. cbn in PE. lia.
Qed.
End Table.
