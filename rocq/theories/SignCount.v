(** How many signs the indicators place. *)
From Coq Require Import List Permutation.
From Verif Require Import Base BaseProofs RuleModel TranslationModel TableModel RegexpModel TrieModel HyphenationModel LoopModel CompileModel
  ConstraintModel IndicatorModel IndicatorProofs CapsSpec CapsProofs EmphSpec EmphProofs CapsEmphSpec EmphWordProofs MainPass GrowthProofs.

Lemma filter_length_le {A} (f : A -> bool) l : length (filter f l) <= length l.
Proof. induction l as [|a l IH]; cbn [filter length]; [lia|]. destruct (f a); cbn [length]; lia. Qed.
Lemma last_In' {A} (d : A) l : In (last l d) (d :: l).
Proof. induction l as [|a [|b l] IH]; [left; reflexivity|right; left; reflexivity|]. change (last (a :: b :: l) d) with (last (b :: l) d). destruct IH as [H|H]; [left; exact H|right; right; exact H]. Qed.
Definition size (ws : list (nat * nat)) : nat := list_sum (map (fun w => snd w - fst w) ws).
Lemma words_size u chars from ws : text_words u chars from ws -> Forall (fun w => fst w < snd w) ws /\ size ws <= length chars - from.
Proof.
  unfold size. induction 1 as [from H|from s e ws L1 L2 L3 _ _ _ _ (IH1 & IH2)]; [split; [constructor|cbn; lia]|].
  split; [constructor; assumption|]. cbn [map list_sum fold_right fst snd] in *. unfold list_sum in IH2. unfold char in *. lia.
Qed.
Lemma runs_size Q a b ws : runs_in Q a b ws -> Forall (fun w => fst w < snd w) ws /\ size ws <= b - a.
Proof.
  unfold size. induction 1 as [a b L H|a b s e ws L1 L2 L3 _ _ _ _ (IH1 & IH2)]; [split; [constructor|cbn; lia]|].
  split; [constructor; assumption|]. cbn [map list_sum fold_right fst snd] in *. unfold list_sum in IH2. lia.
Qed.
Lemma size_length ws : Forall (fun w => fst w < snd w) ws -> length ws <= size ws.
Proof. unfold size. induction 1 as [|w ws H _ IH]; cbn [map list_sum fold_right length] in *; [lia|]. unfold list_sum in IH. lia. Qed.
Lemma sort_length {A} (l : list (nat * A)) : length (sort_pos l) = length l.
Proof. apply Permutation_length, sort_pos_perm. Qed.

(** ** Capitals *)
Section Caps.
Variable u : caps_ind.
Variable chars : str.
Lemma opt_at_length p o : length (opt_at p o) <= 1.
Proof. destruct o; cbn; lia. Qed.
Lemma letterwise_length o c : length (letterwise u chars o c) <= c - o.
Proof.
  unfold letterwise. destruct (ui_letter u); [|cbn; lia]. rewrite map_length. eapply Nat.le_trans; [apply filter_length_le|]. unfold upto. rewrite seq_length. lia.
Qed.
Lemma mode_length o c : length (mode_tier u chars o c) <= 2 + (c - o).
Proof.
  unfold mode_tier. destruct (ui_beg u); [cbn [length]; pose proof (opt_at_length c (ui_end u)); lia|]. pose proof (letterwise_length o c). lia.
Qed.
Lemma run_signs r : length (caps_emit_run u chars r) <= 2 + (ru_close r - ru_open r).
Proof.
  unfold caps_emit_run. pose proof (mode_length (ru_open r) (ru_close r)). destruct (if Nat.eqb (ru_count r) 1 then ui_letter u else None); [cbn; lia|].
  destruct (ui_begword u), (ru_trigger r), (ui_endword u); cbn [length]; lia.
Qed.
Lemma word_signs o c k : length (emit_whole_word u chars (o, c, k)) <= 2 + (c - o).
Proof.
  unfold emit_whole_word. pose proof (mode_length o c). destruct (if Nat.eqb k 1 then ui_letter u else None); [cbn; lia|]. destruct (ui_begword u); cbn [length]; lia.
Qed.
Lemma stretches_size e from ss : stretches u chars e from ss -> from <= e ->
  Forall (fun s => st_open s < st_close s) ss /\ list_sum (map (fun s => st_close s - st_open s) ss) <= e - from.
Proof.
  induction 1 as [from H|from o c L1 L2 L3|from o c n l L1 L2 L3 L4 _ _ _ _ _ _ _ _ IH]; intros L; cbn [map list_sum fold_right st_open st_close].
  - split; [constructor|lia].
  - split; [repeat constructor; assumption|lia].
  - destruct (IH ltac:(lia)) as (H1 & H2). unfold list_sum in H2. split; [constructor; assumption|lia].
Qed.
Lemma partial_signs s e : s < e -> length (emit_partial_word u chars s e) <= 3 * (e - s).
Proof.
  intros L. unfold emit_partial_word. destruct (upper_runs_spec u chars e (S e) s) as [R _]; [lia|].
  apply stretches_size in R; [|lia]. revert R. generalize (upper_runs u chars (S e) s e) as rs. generalize (e - s) as n.
  intros n rs. revert n. induction rs as [|r rs IH]; intros n (F & S); cbn [flat_map length]; [lia|]. cbn [map list_sum fold_right] in F, S. inversion F as [|? ? F1 F2]; subst.
  rewrite app_length. pose proof (run_signs r) as R. unfold to_stretch in *. cbn [st_open st_close] in *.
  specialize (IH (n - (ru_close r - ru_open r))). assert (X : length (flat_map (caps_emit_run u chars) rs) <= 3 * (n - (ru_close r - ru_open r))); [|lia].
  apply IH. split; [exact F2|]. unfold list_sum. lia.
Qed.
Definition cost (w : nat * nat * nat) : nat := let '(o, c, _) := w in 4 + (c - o).
Lemma flush_signs group words : length (flush u chars group words) <= list_sum (map cost group).
Proof.
  assert (S : forall l, length (flat_map (emit_whole_word u chars) l) + 2 * length l <= list_sum (map cost l)).
  { induction l as [|[[o c] k] l IH]; [cbn; lia|]. cbn [flat_map length map list_sum fold_right cost]. rewrite app_length. pose proof (word_signs o c k). unfold list_sum in IH. lia. }
  destruct group as [|[[o c] k] ws]; [cbn; lia|]. cbn [flush]. pose proof (S ((o, c, k) :: ws)) as T. unfold emit_group.
  assert (LC : exists lo lc lk, last ws (o, c, k) = (lo, lc, lk) /\ 4 + (lc - lo) <= list_sum (map cost ((o, c, k) :: ws))).
  { destruct (last ws (o, c, k)) as [[lo lc] lk] eqn:E. exists lo, lc, lk. split; [reflexivity|].
    assert (I : In (lo, lc, lk) ((o, c, k) :: ws)).
    { rewrite <- E. apply last_In'. }
    clear -I. induction ((o, c, k) :: ws) as [|w l IH]; [destruct I|]. cbn [map list_sum fold_right]. destruct I as [->|I]; [cbn [cost]; lia|]. specialize (IH I). unfold list_sum in IH. lia. }
  destruct LC as (lo & lc & lk & -> & LC). pose proof (word_signs lo lc lk) as WS. cbn [length] in T.
  destruct (N.leb (ui_len u) (N.of_nat words)); [|lia]. destruct (ui_begphrase u).
  - cbn [length]. destruct (ui_endphrase u); [destruct (ui_before u); cbn [length]; lia|]. pose proof (opt_at_length lc (ui_end u)). lia.
  - destruct (ui_beg u); [|lia]. cbn [length]. pose proof (opt_at_length lc (ui_end u)). lia.
Qed.
Lemma caps_words_signs ws : Forall (fun w => fst w < snd w) ws -> forall group words prev r, caps_words u chars ws group words prev = Ok r ->
  length r <= list_sum (map cost group) + 5 * size ws.
Proof.
  unfold size. induction 1 as [|[s e] ws L F IH]; intros group words prev r E; cbn [caps_words] in E.
  - injection E as <-. pose proof (flush_signs group words). lia.
  - cbn [map list_sum fold_right fst snd] in *. destruct (classify_word u chars s e) as [[[o c] k]|] eqn:EC.
    + destruct (match prev with Some p => space_between u chars p o | None => Ok true end); cbn [bind] in E; try discriminate.
      apply IH in E. rewrite map_app, list_sum_app in E. cbn [map list_sum fold_right cost] in E. unfold list_sum in *.
      destruct (classify_some u chars s e o c k EC) as ((_ & X1 & X2 & X3 & _) & _). cbn [cw_start cw_end cw_open cw_close] in *. lia.
    + destruct (caps_words u chars ws [] 0 None) as [r'| |] eqn:E'; cbn [bind] in E; try discriminate. injection E as <-. apply IH in E'. cbn [map list_sum fold_right] in E'.
      rewrite !app_length. pose proof (flush_signs group words). pose proof (partial_signs s e L). unfold list_sum in *. lia.
Qed.
Lemma caps_signs l : caps_precompute u chars = Ok l -> length l <= 5 * length chars.
Proof.
  unfold caps_precompute. destruct (caps_indicating u); [|intros [= <-]; cbn; lia].
  destruct (caps_words u chars (find_words u chars) [] 0 None) as [r| |] eqn:E; cbn [bind]; try discriminate. intros [= <-]. unfold placed in *. rewrite sort_length.
  destruct (words_size u chars 0 (find_words u chars) (find_words_spec u chars)) as (F & S). apply caps_words_signs in E; [|exact F]. cbn [map list_sum fold_right] in E. unfold size, placed, str, char in *. lia.
Qed.
End Caps.

(** ** Emphasis *)
Section Emph.
Variable u : emph_class.
Variable index : nat.
Variable chars : str.
Lemma opt_ev_length p o : length (opt_ev index p o) <= 1.
Proof. destruct o; cbn; lia. Qed.
Lemma single_length w : length (emit_single_word u index w) <= 1.
Proof. unfold emit_single_word. match goal with |- context [if ?b then em_letter u else None] => destruct (if b then em_letter u else None) end; [cbn; lia|apply opt_ev_length]. Qed.
Lemma clean_length w ws : length (emit_clean_words u index w ws) <= 2 + length ws.
Proof.
  unfold emit_clean_words. match goal with |- context [if ?b then em_begphrase u else None] => destruct (if b then em_begphrase u else None) end.
  - cbn [length]. destruct (em_before u); [pose proof (single_length (last ws w))|pose proof (opt_ev_length (snd (last ws w)) (em_endphrase u))]; lia.
  - eapply Nat.le_trans; [apply (flat_map_bound _ 1); intros y _; apply single_length|]. cbn [length]. lia.
Qed.
Lemma partial_length a b w ws : length (emit_partial u index chars a b w ws) <= 2.
Proof.
  unfold emit_partial. match goal with |- context [if ?b then em_letter u else None] => destruct (if b then em_letter u else None) end; [cbn; lia|]. destruct (em_begword u), (em_begphrase u); cbn [length]; try lia;
    match goal with |- context [if ?x then opt_ev _ ?p ?o else _] => pose proof (opt_ev_length p o); destruct x; cbn [length]; lia end.
Qed.
Lemma emph_run_length a b : a < b -> b <= length chars -> length (emph_emit_run u index chars a b) <= 3 * (b - a).
Proof.
  intros L1 L2. unfold emph_emit_run. destruct (em_beg u); [destruct (em_end u); cbn [length]; lia|].
  destruct (runs_size _ _ _ _ (words_of u chars a b ltac:(lia) L2)) as (F & S). pose proof (size_length _ F) as SL.
  destruct (emph_words u chars a b) as [|w ws]; [cbn; lia|]. cbn [length] in SL. pose proof (clean_length w ws). pose proof (partial_length a b w ws).
  destruct (_ && _)%bool; lia.
Qed.
Lemma emph_class_length spans : length (emph_emit u index chars spans) <= 3 * length chars.
Proof.
  unfold emph_emit. pose proof (proj1 (runs_from_spec (active_at u chars spans) (length chars) 0)) as R. cbn [Nat.add] in R. apply runs_size in R.
  unfold active_runs. assert (I : forall a b, In (a, b) (runs_from (active_at u chars spans) (length chars) 0 None) -> b <= length chars).
  { intros a b I. apply active_runs_In in I. apply I. }
  assert (G : forall ws, Forall (fun w => fst w < snd w) ws -> (forall a b, In (a, b) ws -> b <= length chars) -> forall n, size ws <= n ->
    length (flat_map (fun r => emph_emit_run u index chars (fst r) (snd r)) ws) <= 3 * n).
  { clear. unfold size. induction 1 as [|[a b] ws L F IH]; intros I n S; cbn [flat_map length map list_sum fold_right fst snd] in *; [lia|].
    rewrite app_length. pose proof (emph_run_length a b L (I a b (or_introl eq_refl))) as X.
    specialize (IH (fun y z H => I y z (or_intror H)) (n - (b - a))). unfold list_sum in IH. specialize (IH ltac:(lia)). lia. }
  destruct R as (F & S). rewrite Nat.sub_0_r in S. apply G; assumption.
Qed.
End Emph.
Lemma emph_events_length us : forall index chars spans, length (emph_events us index chars spans) <= 3 * length us * length chars.
Proof.
  induction us as [|u us IH]; intros index chars spans; cbn [emph_events length]; [lia|]. rewrite app_length. pose proof (emph_class_length u index chars spans). specialize (IH (S index) chars spans). lia.
Qed.
Lemma emph_signs sort us chars spans out : sort_rearranges sort -> emph_precompute sort us chars spans = Ok out -> length out <= 3 * length us * length chars.
Proof.
  intros SR. unfold emph_precompute. destruct (event_sort sort _) as [es| |] eqn:E; cbn [bind]; try discriminate. intros [= <-]. rewrite map_length.
  assert (P : Permutation (emph_events us 0 chars spans) es).
  { unfold event_sort in E. destruct (Nat.leb _ 20); [injection E as <-; apply insertion_sort_facts|apply SR, E]. }
  rewrite <- (Permutation_length P). apply emph_events_length.
Qed.

(** ** The others *)
Lemma numeric_signs u chars : length (numeric_precompute u chars) <= length chars.
Proof.
  unfold numeric_precompute. generalize 0 as pos. generalize false as b. unfold str, char, placed in *. induction chars as [|c r IH]; intros b pos; cbn [numeric_loop length]; [lia|].
  destruct (mem c (nu_digits (ni_chars u))); [|destruct (b && mem c (nu_extra (ni_chars u)))%bool; [|destruct (_ && _ && _ && _)%bool]].
  - rewrite app_length. specialize (IH true (S pos)). destruct b; cbn [length]; lia.
  - specialize (IH true (S pos)). lia.
  - specialize (IH true (S pos)). lia.
  - rewrite app_length. specialize (IH false (S pos)). destruct (b && mem c (ni_stop u))%bool; [destruct (ni_end u)|]; cbn [length]; lia.
Qed.
Lemma letter_signs lower u chars : length (letter_precompute lower u chars) <= length chars.
Proof. unfold letter_precompute. rewrite map_length. eapply Nat.le_trans; [apply filter_length_le|]. rewrite seq_length. lia. Qed.
Lemma nocont_signs lower u chars : length (nocont_precompute lower u chars) <= length chars.
Proof.
  unfold nocont_precompute. rewrite map_length. generalize 0 as pos. generalize (@None char) as prev. induction chars as [|c r IH]; intros prev pos; cbn [contraction_positions length]; [lia|].
  rewrite app_length. specialize (IH (Some c) (S pos)). destruct (is_empty _); cbn [length]; lia.
Qed.
Lemma comp_signs u chars spans : length (comp_precompute u chars spans) <= 2 * length spans.
Proof.
  unfold comp_precompute, placed. rewrite sort_length. apply flat_map_bound. intros s _. destruct (str_eqb _ _); [|cbn; lia]. destruct (Nat.leb _ _); [cbn; lia|]. cbn [length]. destruct (ci_end u); cbn; lia.
Qed.
Lemma enriched_length m input spans sp : enriched m input spans = Ok sp -> length sp <= length spans + length input + 1.
Proof.
  unfold enriched. destruct (mt_scanner m) as [k|]; [|intros [= <-]; lia]. unfold enrich.
  assert (G : forall f pos l l', scan_loop k input f pos l = Ok l' -> length l' <= length l + f).
  { induction f as [|f IH]; intros pos l l' E; cbn [scan_loop] in E; [discriminate|]. destruct (Nat.leb _ _); [injection E as <-; lia|].
    destruct (existsb _ _); [|apply IH in E; lia]. apply IH in E. destruct (existsb _ _); [lia|]. rewrite app_length in E. cbn [length] in E. lia. }
  intros E. apply G in E. lia.
Qed.
(** all together *)
Lemma here_sum {A} (l : list (nat * A)) n : list_sum (map (fun p => length (here p l)) (seq 0 n)) <= length l.
Proof.
  induction l as [|[q t] l IH]; [unfold here; cbn [filter length]; generalize (seq 0 n) as ps; induction ps as [|p ps IHp]; cbn [map list_sum fold_right] in *; unfold list_sum in *; lia|]. cbn [length]. unfold here in *.
  assert (X : list_sum (map (fun p => length (filter (fun x : nat * A => Nat.eqb (fst x) p) ((q, t) :: l))) (seq 0 n)) <=
              list_sum (map (fun p => length (filter (fun x : nat * A => Nat.eqb (fst x) p) l)) (seq 0 n)) + list_sum (map (fun p => if Nat.eqb q p then 1 else 0) (seq 0 n))).
  { clear IH. induction (seq 0 n) as [|p ps IHp]; cbn [map list_sum fold_right filter fst] in *; [lia|]. unfold list_sum in IHp. destruct (Nat.eqb q p); cbn [length]; lia. }
  assert (Y : forall k m, list_sum (map (fun p => if Nat.eqb q p then 1 else 0) (seq k m)) <= 1 /\ (q < k -> list_sum (map (fun p => if Nat.eqb q p then 1 else 0) (seq k m)) = 0)).
  { intros k m. revert k. induction m as [|m IHm]; intros k; cbn [seq map list_sum fold_right] in *; [lia|]. destruct (IHm (S k)) as [H1 H2]. unfold list_sum in *.
    destruct (Nat.eqb_spec q k); [rewrite H2 by lia; lia|]. split; [lia|]. intros L. apply H2. lia. }
  pose proof (proj1 (Y 0 n)). lia.
Qed.
