(** Word by word translation. *)
From Coq Require Import Permutation.
From Verif Require Import Base BaseProofs RuleModel TranslationModel TranslationProofs TableModel TableProofs RegexpModel
  RegexpSpec PatternModel MatchProofs TrieModel TrieProofs PropTrie
  HyphenationModel HyphenationProofs LoopModel LoopProofs MultipassProofs PrimaryProofs PrimaryTrace CompileModel CompileSpec
  CompileProofs MainTable ConstraintModel ConstraintSpec ConstraintProofs IndicatorModel IndicatorProofs
  CapsSpec CapsProofs CapsFacts EmphSpec EmphProofs MainSpec StepProofs TraceSpec MainPass FrameSpec LocalSpec.

(** ** Tries *)
Section Edges.
Variable P : edge -> Prop.
Inductive all_edges : node -> Prop :=
| AllEdges t ts : Forall (fun p => P (fst p) /\ all_edges (snd p)) ts -> all_edges (Node t ts).
Lemma edges_empty : all_edges node_empty.
Proof. constructor. constructor. Qed.
Lemma edges_update f path : Forall P path -> forall n, all_edges n -> all_edges (node_update f path n).
Proof.
  induction path as [|e path IH]; intros F n A; inversion A as [t ts FA]; subst; cbn [node_update].
  - constructor. exact FA.
  - inversion F as [|? ? Pe Fp]; subst. constructor. clear A t. induction FA as [|[e' ch] r [H1 H2] FA IH2].
    + constructor; [|constructor]. cbn. split; [exact Pe|]. apply IH; [exact Fp|apply edges_empty].
    + destruct (edge_eqb e e'); constructor; cbn [fst snd] in *; auto.
Qed.
Lemma edges_build compat ctx d l n : (forall a, In a l -> Forall P (ins_path ctx d a)) -> trie_insert_all compat ctx d node_empty l = TOk n -> all_edges n.
Proof.
  intros H. assert (G : forall l m, (forall a, In a l -> Forall P (ins_path ctx d a)) -> all_edges m -> trie_insert_all compat ctx d m l = TOk n -> all_edges n).
  { clear H l. induction l as [|a l IH]; intros m H A E; cbn [trie_insert_all] in E; [congruence|].
    unfold trie_insert in E. destruct (ins_from d a) eqn:EF; [discriminate|]. cbn [tbind] in E. eapply IH; [|apply edges_update; [apply H; left; reflexivity|exact A]|exact E].
    intros b Hb. apply H. right. exact Hb. }
  intros E. eapply G; [exact H|apply edges_empty|exact E].
Qed.
Lemma edges_shuffle n : forall n', shuffle n n' -> all_edges n -> all_edges n'.
Proof.
  induction n as [t ts IH] using node_ind'. intros n' S A. inversion S as [t0 ts0 ts' us F Pm]; subst. inversion A as [t0 ts0 FA]; subst.
  constructor. apply (Permutation_Forall Pm). clear - IH F FA. revert IH FA. induction F as [|[e ch] [e' ch'] l l' [H1 H2] F IH2]; intros IH FA; [constructor|].
  inversion IH as [|? ? I1 I2]; subst. inversion FA as [|? ? [A1 A2] A3]; subst. cbn [fst snd] in *. subst e'.
  constructor; [|apply IH2; assumption]. cbn. split; [exact A1|]. eapply I1; eauto.
Qed.
End Edges.
(** a path with no letter [sp] and with conditions that [sp] meets as the ends of the text do *)
Definition blind (sp : char) (e : edge) : Prop :=
  match e with ECh c => c <> sp | EStart rc | EEnd rc => rc_matches rc (Some sp) = rc_matches rc None end.
Section Find.
Variable lower : char -> list char.
Variable sp : char.
Hypothesis LS : lower sp = [sp].
Notation find := (find_translations lower).
Lemma find_unfold t ts input prev : find (Node t ts) input prev =
  opt_list t ++
  (match input with
   | c :: rest => match single_lower lower c with
     | Some y => (fix look (l : list (edge * node)) := match l with [] => [] | (e, ch) :: r => if edge_eqb (ECh y) e then find ch rest (Some c) else look r end) ts
     | None => [] end
   | [] => [] end) ++
  (fix go (l : list (edge * node)) := match l with
     | [] => []
     | (EStart rc, ch) :: r => (if rc_matches rc prev then find ch input prev else []) ++ go r
     | (EEnd rc, ch) :: r => (if rc_matches rc (hd_error input) then find ch input prev else []) ++ go r
     | (ECh _, _) :: r => go r end) ts.
Proof. reflexivity. Qed.
Definition same_prev (p q : option char) : Prop := p = q \/ p = None /\ q = Some sp.
Lemma find_cut n : all_edges (blind sp) n -> forall w v prev prev', same_prev prev prev' -> find n w prev = find n (w ++ sp :: v) prev'.
Proof.
  induction n as [t ts IH] using node_ind'. intros A w v prev prev' SP. inversion A as [t0 ts0 FA]; subst. rewrite !find_unfold. f_equal. f_equal.
  - destruct w as [|c w]; cbn [app].
    + unfold single_lower. rewrite LS. clear - FA. induction FA as [|[e ch] r [H1 H2] FA IH2]; [reflexivity|]. cbn [fst snd] in H1.
      destruct e as [c|rc|rc]; cbn [edge_eqb]; auto. destruct (N.eqb_spec sp c) as [X|X]; [cbn in H1; congruence|exact IH2].
    + destruct (single_lower lower c) as [y|]; [|reflexivity]. clear A SP. revert IH FA.
      induction ts as [|[e ch] r IH2]; intros IH FA; [reflexivity|]. inversion IH as [|? ? I1 I2]; subst. inversion FA as [|? ? [A1 A2] A3]; subst.
      destruct (edge_eqb (ECh y) e); [|apply IH2; assumption]. apply I1; [exact A2|left; reflexivity].
  - clear A. revert IH FA. induction ts as [|[e ch] r IH2]; intros IH FA; [reflexivity|]. inversion IH as [|? ? I1 I2]; subst. inversion FA as [|? ? [A1 A2] A3]; subst.
    cbn [fst snd] in *. destruct e as [c|rc|rc]; [apply IH2; assumption| |].
    + rewrite (IH2 I2 A3). f_equal. rewrite <- (I1 A2 w v prev prev' SP).
      assert (E : rc_matches rc prev = rc_matches rc prev') by (destruct SP as [->|[-> ->]]; [reflexivity|symmetry; exact A1]). rewrite E. reflexivity.
    + rewrite (IH2 I2 A3). f_equal. rewrite <- (I1 A2 w v prev prev' SP).
      assert (E : rc_matches rc (hd_error w) = rc_matches rc (hd_error (w ++ sp :: v))) by (destruct w; [symmetry; exact A1|reflexivity]). rewrite E. reflexivity.
Qed.
Lemma find_prev n : all_edges (blind sp) n -> forall w prev prev', same_prev prev prev' -> find n w prev = find n w prev'.
Proof.
  induction n as [t ts IH] using node_ind'. intros A w prev prev' SP. inversion A as [t0 ts0 FA]; subst. rewrite !find_unfold. f_equal. f_equal.
  clear A. revert IH FA. induction ts as [|[e ch] r IH2]; intros IH FA; [reflexivity|]. inversion IH as [|? ? I1 I2]; subst. inversion FA as [|? ? [A1 A2] A3]; subst.
  cbn [fst snd] in *. destruct e as [c|rc|rc]; [apply IH2; assumption| |].
  - rewrite (IH2 I2 A3). f_equal. rewrite <- (I1 A2 w prev prev' SP).
    assert (E : rc_matches rc prev = rc_matches rc prev') by (destruct SP as [->|[-> ->]]; [reflexivity|symmetry; exact A1]). rewrite E. reflexivity.
  - rewrite (IH2 I2 A3). f_equal. rewrite <- (I1 A2 w prev prev' SP). reflexivity.
Qed.
End Find.

(** ** Positions of two texts with a separator between them *)
Definition moved {A} (k : nat) (l : list (nat * A)) : list (nat * A) := map (fun p => (k + fst p, snd p)) l.
Definition moved1 (k : nat) (l : list nat) : list nat := map (fun p => k + p) l.
Lemma here_app {A} p (a b : list (nat * A)) : here p (a ++ b) = here p a ++ here p b.
Proof. apply filter_app. Qed.
Lemma here_none {A} p (l : list (nat * A)) : (forall y, In y l -> fst y <> p) -> here p l = [].
Proof.
  intros H. unfold here. induction l as [|y l IH]; [reflexivity|]. cbn [filter]. destruct (Nat.eqb_spec (fst y) p) as [X|X].
  - destruct (H y (or_introl eq_refl) X).
  - apply IH. intros z Hz. apply H. right. exact Hz.
Qed.
Lemma here_moved {A} k p (l : list (nat * A)) : here (k + p) (moved k l) = moved k (here p l).
Proof.
  unfold here, moved. induction l as [|y l IH]; [reflexivity|]. cbn [map filter fst]. rewrite IH.
  destruct (Nat.eqb_spec (fst y) p), (Nat.eqb_spec (k + fst y) (k + p)); try lia; reflexivity.
Qed.
Lemma moved_snd {A} k (l : list (nat * A)) : map snd (moved k l) = map snd l.
Proof. unfold moved. rewrite map_map. reflexivity. Qed.
Lemma moved_app {A} k (a b : list (nat * A)) : moved k (a ++ b) = moved k a ++ moved k b.
Proof. apply map_app. Qed.
Lemma here_left {A} n p (a b : list (nat * A)) : p <= n -> here p (a ++ moved (S n) b) = here p a.
Proof.
  intros L. rewrite here_app, (here_none p (moved (S n) b)), app_nil_r; [reflexivity|].
  intros y Hy. apply in_map_iff in Hy. destruct Hy as (z & <- & _). cbn [fst]. lia.
Qed.
Lemma here_right {A} n p (a b : list (nat * A)) : (forall y, In y a -> fst y <= n) -> here (S n + p) (a ++ moved (S n) b) = moved (S n) (here p b).
Proof.
  intros H. rewrite here_app, here_none, here_moved; [reflexivity|]. intros y Hy. specialize (H y Hy). lia.
Qed.
Lemma nth_left {A} (u v : list A) sp p : p < length u -> nth_error (u ++ sp :: v) p = nth_error u p.
Proof. intros L. apply nth_error_app1, L. Qed.
Lemma nth_right {A} (u v : list A) sp p : nth_error (u ++ sp :: v) (S (length u) + p) = nth_error v p.
Proof. rewrite nth_error_app2 by lia. replace (S (length u) + p - length u) with (S p) by lia. reflexivity. Qed.
Lemma nth_middle_at {A} (u v : list A) sp : nth_error (u ++ sp :: v) (length u) = Some sp.
Proof. rewrite nth_error_app2 by lia. rewrite Nat.sub_diag. reflexivity. Qed.
Lemma skip_left {A} (u v : list A) sp p : p <= length u -> skipn p (u ++ sp :: v) = skipn p u ++ sp :: v.
Proof. intros L. rewrite skipn_app. replace (p - length u) with 0 by lia. reflexivity. Qed.
Lemma skip_right {A} (u v : list A) sp p : skipn (S (length u) + p) (u ++ sp :: v) = skipn p v.
Proof. rewrite skipn_app, skipn_all2 by lia. replace (S (length u) + p - length u) with (S p) by lia. reflexivity. Qed.
Lemma first_left {A} (u v : list A) sp p : p <= length u -> firstn p (u ++ sp :: v) = firstn p u.
Proof. intros L. rewrite firstn_app. replace (p - length u) with 0 by lia. apply app_nil_r. Qed.
Lemma first_right {A} (u v : list A) sp p : firstn (S (length u) + p) (u ++ sp :: v) = u ++ sp :: firstn p v.
Proof. rewrite firstn_app, firstn_all2 by lia. replace (S (length u) + p - length u) with (S p) by lia. reflexivity. Qed.

(** ** Numbers *)
Section Numbers.
Variable sp : char.
Lemma numeric_cut u : mem sp (nu_digits (ni_chars u)) = false -> mem sp (nu_extra (ni_chars u)) = false -> mem sp (nu_mid (ni_chars u)) = false ->
  mem sp (ni_stop u) = false -> forall w v inn pos,
  numeric_loop u inn pos (w ++ sp :: v) = numeric_loop u inn pos w ++ numeric_loop u false (S (pos + length w)) v.
Proof.
  intros H1 H2 H3 H4. induction w as [|c w IH]; intros v inn pos.
  - cbn [app numeric_loop length]. rewrite H1, H2, H3, H4, !andb_false_r. cbn [andb app]. rewrite Nat.add_0_r. reflexivity.
  - cbn [app numeric_loop length]. rewrite !IH. rewrite !Nat.add_succ_r, !Nat.add_succ_l.
    unfold str, char in *. assert (E : match w ++ sp :: v with c' :: _ => mem c' (nu_digits (ni_chars u)) | [] => false end =
                match w with c' :: _ => mem c' (nu_digits (ni_chars u)) | [] => false end) by (destruct w; [exact H1|reflexivity]).
    rewrite E. destruct (mem c (nu_digits (ni_chars u))); [rewrite app_assoc; reflexivity|].
    destruct (inn && mem c (nu_extra (ni_chars u)))%bool; [reflexivity|].
    destruct (_ && _)%bool; [reflexivity|]. rewrite app_assoc. reflexivity.
Qed.
Lemma numeric_moved u k v : forall inn pos, numeric_loop u inn (k + pos) v = moved k (numeric_loop u inn pos v).
Proof.
  induction v as [|c v IH]; intros inn pos; [reflexivity|]. cbn [numeric_loop]. rewrite <- !Nat.add_succ_r, !IH.
  destruct (mem c _); [rewrite moved_app; destruct inn; reflexivity|]. destruct (_ && _)%bool; [reflexivity|]. destruct (_ && _)%bool; [reflexivity|].
  rewrite moved_app. f_equal. destruct (_ && _)%bool; [|reflexivity]. destruct (ni_end u); reflexivity.
Qed.
Lemma marks_cut u : mem sp (nu_digits u) = false -> mem sp (nu_extra u) = false -> mem sp (nu_mid u) = false -> forall w v inn,
  numeric_marks u inn (w ++ sp :: v) = numeric_marks u inn w ++ false :: numeric_marks u false v.
Proof.
  intros H1 H2 H3. induction w as [|c w IH]; intros v inn.
  - cbn [app numeric_marks]. rewrite H1, H2, H3, !andb_false_r. reflexivity.
  - cbn [app numeric_marks]. rewrite !IH.
    unfold str, char in *. assert (E : match w ++ sp :: v with c' :: _ => mem c' (nu_digits u) | [] => false end =
                match w with c' :: _ => mem c' (nu_digits u) | [] => false end) by (destruct w; [exact H1|reflexivity]).
    rewrite E. destruct (mem c (nu_digits u)); [reflexivity|]. destruct (_ && _)%bool; [reflexivity|]. destruct (_ && _)%bool; reflexivity.
Qed.
End Numbers.

(** ** Contractions *)
Section Contractions.
Variable lower : char -> list char.
Variable sp : char.
Hypothesis LS : lower sp = [sp].
Variable n : node.
Hypothesis A : all_edges (blind sp) n.
Hypothesis E0 : forall prev, find_translations lower n [] prev = [].
Lemma contraction_prev v pos : contraction_positions lower n (Some sp) pos v = contraction_positions lower n None pos v.
Proof. destruct v as [|c v]; [reflexivity|]. cbn [contraction_positions]. rewrite (find_prev lower sp n A (c :: v) None (Some sp)); [reflexivity|right; auto]. Qed.
Lemma contraction_cut w : forall v prev pos, contraction_positions lower n prev pos (w ++ sp :: v) =
  contraction_positions lower n prev pos w ++ contraction_positions lower n None (S (pos + length w)) v.
Proof.
  induction w as [|c w IH]; intros v prev pos.
  - cbn [app contraction_positions length]. pose proof (find_cut lower sp LS n A [] v prev prev (or_introl eq_refl)) as X. rewrite E0 in X. cbn [app] in X.
    rewrite <- X. cbn [is_empty app]. rewrite contraction_prev, Nat.add_0_r. reflexivity.
  - cbn [app contraction_positions length]. pose proof (find_cut lower sp LS n A (c :: w) v prev prev (or_introl eq_refl)) as X. cbn [app] in X. unfold str, char in *. rewrite <- X.
    rewrite IH, app_assoc, Nat.add_succ_r, Nat.add_succ_l. reflexivity.
Qed.
Lemma contraction_moved k v : forall prev pos, contraction_positions lower n prev (k + pos) v = moved1 k (contraction_positions lower n prev pos v).
Proof.
  induction v as [|c v IH]; intros prev pos; [reflexivity|]. cbn [contraction_positions]. rewrite <- Nat.add_succ_r, IH. unfold moved1. rewrite map_app.
  destruct (is_empty _); reflexivity.
Qed.
End Contractions.

(** ** Hyphenation *)
Section Hyphens.
Variable h : hyph.
Variable L : list char.
Lemma mark_breaks_more n n' bs : n <= n' -> forall start l, mark_breaks n start bs = Ok l -> mark_breaks n' start bs = Ok l.
Proof.
  intros N. induction bs as [|b bs IH]; intros start l E; cbn [mark_breaks] in *; [exact E|].
  destruct (mark_breaks n (S start) bs) as [l0| |] eqn:E0; try discriminate E. rewrite (IH _ _ E0). cbn [bind] in *.
  destruct b; [|exact E]. destruct (Nat.ltb_spec start n) as [X|X]; [|discriminate E]. destruct (Nat.ltb_spec start n') as [Y|Y]; [exact E|lia].
Qed.
Lemma mark_breaks_moved k n bs : forall start l, mark_breaks n start bs = Ok l -> mark_breaks (k + n) (k + start) bs = Ok (moved1 k l).
Proof.
  induction bs as [|b bs IH]; intros start l E; cbn [mark_breaks] in *; [injection E as <-; reflexivity|].
  destruct (mark_breaks n (S start) bs) as [l0| |] eqn:E0; try discriminate E. apply IH in E0. rewrite Nat.add_succ_r in E0. rewrite E0. cbn [bind] in *.
  destruct b; [|injection E as <-; reflexivity]. destruct (Nat.ltb_spec start n) as [X|X]; [|discriminate E]. destruct (Nat.ltb_spec (k + start) (k + n)) as [Y|Y]; [|lia].
  injection E as <-. reflexivity.
Qed.
Lemma word_left u v sp st e l : st <= e -> e <= length u -> mark_word h u st e = Ok l -> mark_word h (u ++ sp :: v) st e = Ok l.
Proof.
  intros H1 H2. unfold mark_word. rewrite skip_left by lia. rewrite firstn_app, skipn_length.
  replace (e - st - (length u - st)) with 0 by lia. cbn [firstn]. rewrite app_nil_r.
  destruct (break_points h (firstn (e - st) (skipn st u))) as [bs| |]; cbn [bind]; try discriminate. apply mark_breaks_more. rewrite app_length. lia.
Qed.
Lemma word_right u v sp st e l : mark_word h v st e = Ok l ->
  mark_word h (u ++ sp :: v) (S (length u) + st) (S (length u) + e) = Ok (moved1 (S (length u)) l).
Proof.
  unfold mark_word. rewrite skip_right. replace (S (length u) + e - (S (length u) + st)) with (e - st) by lia.
  destruct (break_points h (firstn (e - st) (skipn st v))) as [bs| |]; cbn [bind]; try discriminate. intros E. apply (mark_breaks_moved (S (length u))) in E.
  rewrite app_length. cbn [length]. replace (length u + S (length v)) with (S (length u) + length v) by lia. exact E.
Qed.
Lemma hyphen_right u v sp : forall s pos ws l, (forall st, ws = Some st -> st <= pos) -> pos + length s = length v -> hyphen_loop h L v s pos ws = Ok l ->
  hyphen_loop h L (u ++ sp :: v) s (S (length u) + pos) (option_map (fun st => S (length u) + st) ws) = Ok (moved1 (S (length u)) l).
Proof.
  induction s as [|c s IH]; intros pos ws l W P E.
  - cbn [hyphen_loop] in *. destruct ws as [st|]; cbn [option_map]; [|injection E as <-; reflexivity].
    rewrite app_length. cbn [length]. replace (length u + S (length v)) with (S (length u) + length v) by lia. apply word_right, E.
  - cbn [hyphen_loop length] in *. rewrite <- Nat.add_succ_r. destruct (mem c L).
    + replace (match option_map (fun st => S (length u) + st) ws with Some st => Some st | None => Some (S (length u) + pos) end)
        with (option_map (fun st => S (length u) + st) (match ws with Some st => Some st | None => Some pos end)) by (destruct ws; reflexivity).
      apply IH; [|lia|exact E]. intros st Es. destruct ws as [st0|]; injection Es as <-; [specialize (W _ eq_refl); lia|lia].
    + destruct ws as [st|]; cbn [option_map].
      * destruct (mark_word h v st pos) as [a| |] eqn:Ea; try discriminate E. cbn [bind] in E.
        destruct (hyphen_loop h L v s (S pos) None) as [b| |] eqn:Eb; try discriminate E. cbn [bind] in E. injection E as <-.
        rewrite (word_right _ _ _ _ _ _ Ea). cbn [bind]. apply IH in Eb; [|discriminate|lia]. cbn [option_map] in Eb. rewrite Eb. cbn [bind]. unfold moved1. rewrite map_app. reflexivity.
      * apply (IH (S pos) None); [discriminate|lia|exact E].
Qed.
Lemma hyphen_left u v sp l2 : mem sp L = false -> hyphen_loop h L (u ++ sp :: v) v (S (length u)) None = Ok l2 ->
  forall w pos ws l1, (forall st, ws = Some st -> st <= pos) -> pos + length w = length u -> hyphen_loop h L u w pos ws = Ok l1 ->
  hyphen_loop h L (u ++ sp :: v) (w ++ sp :: v) pos ws = Ok (l1 ++ l2).
Proof.
  intros SL E2. induction w as [|c w IH]; intros pos ws l1 W P E.
  - cbn [hyphen_loop app length] in *. rewrite SL. rewrite Nat.add_0_r in P. subst pos. destruct ws as [st|].
    + rewrite (word_left _ _ _ _ _ _ (W st eq_refl) (Nat.le_refl _) E). cbn [bind]. rewrite E2. reflexivity.
    + injection E as <-. exact E2.
  - cbn [hyphen_loop app length] in *. destruct (mem c L).
    + apply IH; [|lia|exact E]. intros st Es. destruct ws as [st0|]; injection Es as <-; [specialize (W _ eq_refl); lia|lia].
    + destruct ws as [st|].
      * destruct (mark_word h u st pos) as [a| |] eqn:Ea; try discriminate E. cbn [bind] in E.
        destruct (hyphen_loop h L u w (S pos) None) as [b| |] eqn:Eb; try discriminate E. cbn [bind] in E. injection E as <-.
        unfold str, char in *. assert (X : mark_word h (u ++ sp :: v) st pos = Ok a) by (apply word_left; [apply W; reflexivity|lia|exact Ea]). assert (Y : hyphen_loop h L (u ++ sp :: v) (w ++ sp :: v) (S pos) None = Ok (b ++ l2)) by (apply IH; [discriminate|lia|exact Eb]). unfold str, char in *. rewrite X. cbn [bind]. rewrite Y.
        cbn [bind]. rewrite app_assoc. reflexivity.
      * apply IH; [discriminate|lia|exact E].
Qed.
Lemma hyphen_cut u v sp l1 l2 : mem sp L = false -> hyphen_marks h L u = Ok l1 -> hyphen_marks h L v = Ok l2 ->
  hyphen_marks h L (u ++ sp :: v) = Ok (l1 ++ moved1 (S (length u)) l2).
Proof.
  intros SL E1 E2. apply hyphen_left; auto; try discriminate.
  pose proof (hyphen_right u v sp v 0 None l2 ltac:(discriminate) eq_refl E2) as X. rewrite Nat.add_0_r in X. exact X.
Qed.
End Hyphens.

(** ** Punctuation *)
Section Punctuation.
Variable k : punct_chars.
Variable sp : char.
Hypothesis H1 : mem sp (pc_word k) = false.
Hypothesis H2 : mem sp (pc_space k) = true.
Hypothesis H3 : mem sp (pc_letters k) = false.
Lemma scan_cut w v : scan k (w ++ sp :: v) = scan k w.
Proof. induction w as [|c w IH]; cbn [app scan]; [rewrite H1, H2; reflexivity|]. rewrite IH. reflexivity. Qed.
Lemma before_left u v p : p < length u -> char_before (u ++ sp :: v) p = char_before u p.
Proof. intros L. destruct p as [|p]; [reflexivity|]. apply nth_left. lia. Qed.
Lemma before_right u v p : not_in (pc_letters k) (char_before (u ++ sp :: v) (S (length u) + p)) = not_in (pc_letters k) (char_before v p).
Proof.
  destruct p as [|p].
  - rewrite Nat.add_0_r. cbn [char_before]. rewrite nth_middle_at. cbn [not_in]. rewrite H3. reflexivity.
  - rewrite Nat.add_succ_r. cbn [char_before]. rewrite nth_right. reflexivity.
Qed.
Lemma after_left u v p : p < length u -> not_in (pc_letters k) (nth_error (u ++ sp :: v) (S p)) = not_in (pc_letters k) (nth_error u (S p)).
Proof.
  intros L. destruct (Nat.eq_dec (S p) (length u)) as [X|X].
  - rewrite X, nth_middle_at. rewrite (proj2 (nth_error_None u (length u))) by lia. cbn [not_in]. rewrite H3. reflexivity.
  - rewrite nth_left by lia. reflexivity.
Qed.
Lemma punct_left u v p : p < length u ->
  prepunc_mark k (u ++ sp :: v) p = prepunc_mark k u p /\ postpunc_mark k (u ++ sp :: v) p = postpunc_mark k u p.
Proof.
  intros L. unfold prepunc_mark, postpunc_mark. rewrite before_left by exact L. rewrite skip_left by exact L. rewrite scan_cut, after_left by exact L. rewrite first_left by (apply Nat.lt_le_incl, L). auto.
Qed.
Lemma punct_right u v p :
  prepunc_mark k (u ++ sp :: v) (S (length u) + p) = prepunc_mark k v p /\ postpunc_mark k (u ++ sp :: v) (S (length u) + p) = postpunc_mark k v p.
Proof.
  unfold prepunc_mark, postpunc_mark. rewrite before_right, first_right. replace (S (S (length u) + p)) with (S (length u) + S p) by lia.
  rewrite skip_right, nth_right, rev_app_distr. cbn [rev]. rewrite <- app_assoc. cbn [app]. rewrite scan_cut. auto.
Qed.
End Punctuation.

(** ** Capitals *)
Lemma flat_map_ext_in' {A B} (f g : A -> list B) l : (forall y, In y l -> f y = g y) -> flat_map f l = flat_map g l.
Proof. induction l as [|y l IH]; intros H; [reflexivity|]. cbn. rewrite (H y (or_introl eq_refl)), IH; [reflexivity|]. intros z Hz. apply H. right. exact Hz. Qed.
Section Capitals.
Variable u : caps_ind.
Hypothesis NB : ui_beg u = None.
Hypothesis NP : ui_begphrase u = None.
(** without signs for several words, each word has its own *)
Definition per_word (chars : str) (w : nat * nat) : list placed :=
  match classify_word u chars (fst w) (snd w) with
  | Some g => emit_whole_word u chars g
  | None => emit_partial_word u chars (fst w) (snd w)
  end.
Lemma flush_single chars group words : flush u chars group words = flat_map (emit_whole_word u chars) group.
Proof.
  destruct group as [|w ws]; [reflexivity|]. cbn [flush]. unfold emit_group. destruct w as [[a b] c]. destruct (last ws (a, b, c)) as [[a' b'] c'].
  rewrite NB, NP. destruct (N.leb _ _); reflexivity.
Qed.
Lemma caps_words_single chars ws : forall group words prev l, caps_words u chars ws group words prev = Ok l ->
  l = flat_map (emit_whole_word u chars) group ++ flat_map (per_word chars) ws.
Proof.
  induction ws as [|[s e] ws IH]; intros group words prev l E; cbn [caps_words] in E.
  - injection E as <-. rewrite flush_single. cbn [flat_map]. rewrite app_nil_r. reflexivity.
  - cbn [flat_map]. unfold per_word at 1. cbn [fst snd]. destruct (classify_word u chars s e) as [[[o c] n]|].
    + destruct (match prev with Some p => space_between u chars p o | None => Ok true end) as [nw| |]; try discriminate E. cbn [bind] in E.
      apply IH in E. rewrite E, flat_map_app. cbn [flat_map]. rewrite app_nil_r, app_assoc. reflexivity.
    + destruct (caps_words u chars ws [] 0 None) as [r| |] eqn:Er; try discriminate E. cbn [bind] in E. injection E as <-. apply IH in Er. subst r.
      rewrite flush_single. reflexivity.
Qed.
Section Window.
Variable whole part : str.
Variable k : nat.
Notation window s e := (forall i, s <= i < e -> nth_error whole (k + i) = nth_error part i).
Lemma at_window s e f i : window s e -> s <= i < e -> at_pos whole f (k + i) = at_pos part f i.
Proof. intros W L. unfold at_pos. rewrite W by exact L. reflexivity. Qed.
Lemma upto_moved s e : upto (k + s) (k + e) = moved1 k (upto s e).
Proof.
  unfold upto, moved1. replace (k + e - (k + s)) with (e - s) by lia. generalize (e - s). intros n. revert s.
  induction n as [|n IH]; intros s; [reflexivity|]. cbn [List.seq map]. f_equal. rewrite <- Nat.add_succ_r. apply IH.
Qed.
Lemma filter_moved (f g : nat -> bool) l : (forall i, In i l -> f (k + i) = g i) -> filter f (moved1 k l) = moved1 k (filter g l).
Proof.
  induction l as [|i l IH]; intros H; [reflexivity|]. cbn [moved1 map filter]. rewrite (H i (or_introl eq_refl)).
  fold (moved1 k l). rewrite IH by (intros j Hj; apply H; right; exact Hj). destruct (g i); reflexivity.
Qed.
Lemma letters_window s e : window s e -> letters_in u whole (k + s) (k + e) = moved1 k (letters_in u part s e).
Proof.
  intros W. unfold letters_in. rewrite upto_moved. apply filter_moved. intros i Hi. apply upto_In in Hi. eapply at_window; [exact W|exact Hi].
Qed.
Lemma exists_moved (f g : nat -> bool) l : (forall i, In i l -> f (k + i) = g i) -> existsb f (moved1 k l) = existsb g l /\ forallb f (moved1 k l) = forallb g l.
Proof.
  induction l as [|i l IH]; intros H; [auto|]. cbn [moved1 map existsb forallb]. fold (moved1 k l). rewrite (H i (or_introl eq_refl)).
  destruct IH as [-> ->]; [intros j Hj; apply H; right; exact Hj|]. auto.
Qed.
Lemma last_moved l i : last (moved1 k (i :: l)) 0 = k + last (i :: l) 0.
Proof. revert i. induction l as [|j l IH]; intros i; [reflexivity|]. cbn [moved1 map]. change (last (moved1 k (j :: l)) 0 = k + last (j :: l) 0). apply IH. Qed.
Definition moved_word (w : nat * nat * nat) : nat * nat * nat := let '(o, c, n) := w in (k + o, k + c, n).
Lemma classify_window s e : window s e -> classify_word u whole (k + s) (k + e) = option_map moved_word (classify_word u part s e).
Proof.
  intros W. unfold classify_word. rewrite letters_window by exact W.
  destruct (exists_moved (at_pos whole (is_upper u)) (at_pos part (is_upper u)) (letters_in u part s e)) as [-> ->].
  { intros i Hi. unfold letters_in in Hi. apply filter_In in Hi. destruct Hi as [Hi _]. apply upto_In in Hi. eapply at_window; [exact W|exact Hi]. }
  destruct (letters_in u part s e) as [|i l]; [reflexivity|]. destruct (_ && _)%bool; [|reflexivity]. cbn [option_map moved_word].
  rewrite last_moved. cbn [moved1 map hd length]. rewrite map_length, Nat.add_succ_r. reflexivity.
Qed.
Lemma capital_window s e i : window s e -> s <= i < e -> capital_at u whole (k + i) = capital_at u part i.
Proof. intros W L. unfold capital_at. rewrite !(at_window s e) by assumption. reflexivity. Qed.
Lemma scan_window s e : window s e -> forall todo j close count, s <= j -> j + todo <= e ->
  run_scan u whole todo (k + j) (k + close) count = (let '(c, n, j') := run_scan u part todo j close count in (k + c, n, k + j')).
Proof.
  intros W. induction todo as [|todo IH]; intros j close count H1 H2; cbn [run_scan]; [reflexivity|].
  rewrite !(at_window s e) by (auto; lia). rewrite <- !Nat.add_succ_r. destruct (at_pos part (is_letter u) j); [destruct (at_pos part (is_upper u) j)|]; try reflexivity; apply IH; lia.
Qed.
Lemma scan_moves todo : forall j close count c n j', run_scan u part todo j close count = (c, n, j') -> j <= j' /\ j' <= j + todo /\ (close <= j -> close <= c) /\ (close <= j -> c <= j').
Proof.
  induction todo as [|todo IH]; intros j close count c n j' E; cbn [run_scan] in E; [injection E as <- <- <-; lia|].
  destruct (at_pos part (is_letter u) j); [destruct (at_pos part (is_upper u) j)|].
  - apply IH in E. lia.
  - injection E as <- <- <-. lia.
  - apply IH in E. lia.
Qed.
Definition moved_run (r : run) : run := mk_run (k + ru_open r) (k + ru_close r) (ru_count r) (option_map (fun q => k + q) (ru_trigger r)).
Lemma next_window s e c : window s e -> s <= c -> next_letter u whole (k + c) (k + e) = option_map (fun q => k + q) (next_letter u part c e).
Proof.
  intros W L. unfold next_letter. rewrite letters_window; [|intros i Hi; apply W; lia]. destruct (letters_in u part c e); reflexivity.
Qed.
Lemma runs_window s e : window s e -> forall f1 f2 i, s <= i -> e < f1 + i -> e < f2 + i ->
  upper_runs u whole f1 (k + i) (k + e) = map moved_run (upper_runs u part f2 i e).
Proof.
  intros W. induction f1 as [|f1 IH]; intros f2 i H1 H2 H3.
  - destruct f2 as [|f2]; cbn [upper_runs]; [reflexivity|]. destruct (Nat.leb_spec e i); [reflexivity|lia].
  - cbn [upper_runs]. destruct f2 as [|f2]; cbn [upper_runs].
    + destruct (Nat.leb_spec (k + e) (k + i)); [reflexivity|lia].
    + destruct (Nat.leb_spec (k + e) (k + i)) as [X|X]; destruct (Nat.leb_spec e i) as [Y|Y]; try lia; [reflexivity|].
      rewrite (capital_window s e) by (auto; lia). destruct (capital_at u part i) eqn:C.
      * replace (k + e - S (k + i)) with (e - S i) by lia. rewrite <- !Nat.add_succ_r. rewrite (scan_window s e W) by lia.
        destruct (run_scan u part (e - S i) (S i) (S i) 1) as [[c n] j'] eqn:R. pose proof (scan_moves _ _ _ _ _ _ _ R) as (M1 & M2 & M3 & M4).
        cbn [map]. rewrite (next_window s e) by (auto; lia). f_equal. apply IH; lia.
      * rewrite <- Nat.add_succ_r. apply IH; lia.
Qed.
Lemma runs_inside s e : forall f i r, s <= i -> In r (upper_runs u part f i e) -> s <= ru_open r /\ ru_close r <= e.
Proof.
  induction f as [|f IH]; intros i r L I; cbn [upper_runs] in I; [destruct I|]. destruct (Nat.leb_spec e i) as [X|X]; [destruct I|].
  destruct (capital_at u part i).
  - destruct (run_scan u part (e - S i) (S i) (S i) 1) as [[c n] j'] eqn:R. pose proof (scan_moves _ _ _ _ _ _ _ R) as (M1 & M2 & M3 & M4).
    destruct I as [<-|I]; [cbn; lia|]. eapply IH; [|exact I]. lia.
  - eapply IH; [|exact I]. lia.
Qed.
Lemma letterwise_window s e o c : window s e -> s <= o -> c <= e -> letterwise u whole (k + o) (k + c) = moved k (letterwise u part o c).
Proof.
  intros W H1 H2. unfold letterwise. destruct (ui_letter u) as [t|]; [|reflexivity]. rewrite upto_moved.
  rewrite (filter_moved _ (capital_at u part)); [|intros i Hi; apply upto_In in Hi; apply (capital_window s e); auto; lia].
  unfold moved, moved1. rewrite !map_map. reflexivity.
Qed.
Lemma tier_window s e o c : window s e -> s <= o -> c <= e -> mode_tier u whole (k + o) (k + c) = moved k (mode_tier u part o c).
Proof. intros W H1 H2. unfold mode_tier. rewrite NB. eapply letterwise_window; eauto. Qed.
Lemma emit_run_window s e r : window s e -> s <= ru_open r -> ru_close r <= e ->
  caps_emit_run u whole (moved_run r) = moved k (caps_emit_run u part r).
Proof.
  intros W H1 H2. destruct r as [o c n tr]. unfold caps_emit_run, moved_run. cbn [ru_open ru_close ru_count ru_trigger] in *.
  rewrite (tier_window s e) by assumption.
  destruct (if n =? 1 then ui_letter u else None); [reflexivity|]. destruct (ui_begword u); [|reflexivity]. destruct tr; cbn [option_map]; [|reflexivity].
  destruct (ui_endword u); reflexivity.
Qed.
Lemma flat_map_moved {A B C} (f : B -> list C) (g : A -> B) (h : A -> list C) l : (forall y, In y l -> f (g y) = h y) -> flat_map f (map g l) = flat_map h l.
Proof. induction l as [|y l IH]; intros H; [reflexivity|]. cbn. rewrite (H y (or_introl eq_refl)), IH; [reflexivity|]. intros z Hz. apply H. right. exact Hz. Qed.
Lemma moved_flat_map {A B} (f : A -> list (nat * B)) l : moved k (flat_map f l) = flat_map (fun y => moved k (f y)) l.
Proof. induction l as [|y l IH]; [reflexivity|]. cbn [flat_map]. rewrite moved_app, IH. reflexivity. Qed.
Lemma partial_window s e : window s e -> emit_partial_word u whole (k + s) (k + e) = moved k (emit_partial_word u part s e).
Proof.
  intros W. unfold emit_partial_word. rewrite (runs_window s e W (S (k + e)) (S e) s) by lia. unfold placed in *. rewrite moved_flat_map. apply flat_map_moved.
  intros r Hr. apply (runs_inside s e) in Hr; [|lia]. apply (emit_run_window s e); tauto.
Qed.
Lemma per_word_window s e : window s e -> per_word whole (k + s, k + e) = moved k (per_word part (s, e)).
Proof.
  intros W. unfold per_word. cbn [fst snd]. rewrite (classify_window s e W). destruct (classify_word u part s e) as [[[o c] n]|] eqn:C; cbn [option_map moved_word]; [|apply partial_window, W].
  assert (I : s <= o /\ c <= e).
  { unfold classify_word in C. destruct (letters_in u part s e) as [|i l] eqn:EL; [discriminate C|]. destruct (_ && _)%bool; [|discriminate C].
    assert (A : forall q, In q (i :: l) -> s <= q < e) by (intros q Hq; rewrite <- EL in Hq; apply filter_In in Hq; destruct Hq as [Hq _]; apply upto_In in Hq; exact Hq).
    injection C as <- <- <-. split; [apply (A i); left; reflexivity|]. apply (A (last (i :: l) 0)). clear. revert i. induction l as [|j l IH]; intros i; [left; reflexivity|].
    right. apply IH. }
  unfold emit_whole_word. rewrite (tier_window s e) by tauto. destruct (if n =? 1 then ui_letter u else None); [reflexivity|]. destruct (ui_begword u); reflexivity.
Qed.
End Window.
Lemma spans_cut p sp (P : p sp = false) v : forall w pos open,
  spans_from p (w ++ sp :: v) pos open = spans_from p w pos open ++ spans_from p v (S (pos + length w)) None.
Proof.
  induction w as [|c w IH]; intros pos open.
  - cbn [app spans_from length]. rewrite P, Nat.add_0_r. destruct open; reflexivity.
  - cbn [app spans_from length]. rewrite !IH, !Nat.add_succ_r. destruct (p c); [reflexivity|]. destruct open; reflexivity.
Qed.
Lemma spans_moved p k v : forall pos open, spans_from p v (k + pos) (option_map (fun st => k + st) open) =
  map (fun w => (k + fst w, k + snd w)) (spans_from p v pos open).
Proof.
  induction v as [|c v IH]; intros pos open; cbn [spans_from]; [destruct open; reflexivity|]. rewrite <- Nat.add_succ_r.
  destruct (p c).
  - replace (match option_map (fun st => k + st) open with Some st => Some st | None => Some (k + pos) end)
      with (option_map (fun st => k + st) (match open with Some st => Some st | None => Some pos end)) by (destruct open; reflexivity). apply IH.
  - destruct open as [st|]; cbn [option_map map]; [f_equal|]; apply (IH (S pos) None).
Qed.
Lemma spans_inside p v : forall pos open w, (forall st, open = Some st -> st <= pos) -> In w (spans_from p v pos open) -> snd w <= pos + length v.
Proof.
  induction v as [|c v IH]; intros pos open w O I; cbn [spans_from length] in *.
  - destruct open; [destruct I as [<-|[]]; cbn; lia|destruct I].
  - destruct (p c).
    + apply IH in I; [lia|]. intros st E. destruct open as [st0|]; injection E as <-; [specialize (O _ eq_refl); lia|lia].
    + destruct open; [destruct I as [<-|I]; [cbn; lia|]|]; apply IH in I; try lia; discriminate.
Qed.
Lemma caps_cut sp a b la lb lw : is_word_char u sp = false ->
  caps_words u a (find_words u a) [] 0 None = Ok la -> caps_words u b (find_words u b) [] 0 None = Ok lb ->
  caps_words u (a ++ sp :: b) (find_words u (a ++ sp :: b)) [] 0 None = Ok lw -> lw = la ++ moved (S (length a)) lb.
Proof.
  intros NS Ea Eb Ew. apply caps_words_single in Ea, Eb, Ew. cbn [flat_map app] in Ea, Eb, Ew. subst la lb lw.
  unfold find_words, find_spans. rewrite !Nat.sub_0_r. cbn [skipn]. rewrite !firstn_all. rewrite spans_cut by exact NS. rewrite flat_map_app. f_equal.
  - apply flat_map_ext_in'. intros [s e] I. apply spans_inside in I; [|discriminate]. cbn [snd plus] in I. unfold str, char in *.
    assert (W : forall i, s <= i < e -> nth_error (a ++ sp :: b) (0 + i) = nth_error a i) by (intros i Hi; apply nth_left; unfold str, char in *; lia).
    pose proof (per_word_window (a ++ sp :: b) a 0 s e W) as X. cbn [plus] in X. rewrite X. unfold moved. erewrite map_ext; [apply map_id|]. intros [? ?]. reflexivity.
  - cbn [plus]. pose proof (spans_moved (is_word_char u) (S (length a)) b 0 None) as X. rewrite Nat.add_0_r in X. cbn [option_map] in X. unfold str, char in *. rewrite X.
    unfold placed in *. rewrite moved_flat_map. apply flat_map_moved. intros [s e] I. cbn [fst snd]. apply per_word_window. intros i Hi. apply nth_right.
Qed.
End Capitals.
