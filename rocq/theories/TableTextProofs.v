(** [parse_table] and the lines of a table. *)
From Coq Require Import Strings.String.
From Coq Require Import List.
From Verif Require Import Base BaseProofs RuleModel BrailleModel BrailleProofs OperandModel OperandProofs PropOperand ParserModel LineSpec LineProofs TableSpec.

(** ** Words *)
Lemma blank_ok c : is_ascii_whitespace c = true <-> blank c.
Proof. unfold is_ascii_whitespace, blank. apply mem_In. Qed.
Lemma words_of_blank g : Forall blank g -> forall s, words_of is_ascii_whitespace [] (g ++ s) = words_of is_ascii_whitespace [] s.
Proof.
  induction 1 as [|c g B _ IH]; intros s; [reflexivity|]. cbn [app words_of]. rewrite (proj2 (blank_ok c) B). apply IH.
Qed.
Lemma words_of_word w : Forall (fun c => ~ blank c) w -> forall cur s, words_of is_ascii_whitespace cur (w ++ s) = words_of is_ascii_whitespace (rev w ++ cur) s.
Proof.
  induction 1 as [|c w B _ IH]; intros cur s; [reflexivity|]. cbn [app words_of].
  destruct (is_ascii_whitespace c) eqn:E; [apply blank_ok in E; contradiction|]. rewrite IH. cbn [rev]. rewrite <- app_assoc. reflexivity.
Qed.
Lemma rev_app_cases w (cur : str) : w <> [] -> rev w ++ cur <> [].
Proof. intros N E. apply app_eq_nil in E. destruct E as [E _]. apply N. rewrite <- (rev_involutive w), E. reflexivity. Qed.
Lemma words_of_end w : w <> [] -> words_of is_ascii_whitespace (rev w) [] = [w].
Proof.
  intros N. cbn [words_of]. destruct (rev w) as [|x y] eqn:E; [destruct (rev_app_cases w [] N); rewrite E; reflexivity|].
  f_equal. rewrite <- (rev_involutive w), E. reflexivity.
Qed.
Lemma words_of_space w c r : w <> [] -> blank c -> words_of is_ascii_whitespace (rev w) (c :: r) = w :: words_of is_ascii_whitespace [] (c :: r).
Proof.
  intros N B. cbn [words_of]. rewrite (proj2 (blank_ok c) B). destruct (rev w) as [|x y] eqn:E; [destruct (rev_app_cases w [] N); rewrite E; reflexivity|].
  f_equal. rewrite <- (rev_involutive w), E. reflexivity.
Qed.
Lemma words_tokens l ts : words l ts -> tokens l = ts.
Proof.
  unfold tokens. induction 1 as [g B|g w B N F|g w c rest ts B N F Bc _ IH].
  - rewrite <- (app_nil_r g), (words_of_blank g B). reflexivity.
  - rewrite (words_of_blank g B). rewrite <- (app_nil_r w) at 1. rewrite (words_of_word w F), app_nil_r. apply words_of_end, N.
  - rewrite (words_of_blank g B), (words_of_word w F), app_nil_r. etransitivity; [apply words_of_space; assumption|]. f_equal. exact IH.
Qed.
Lemma split_blank s : exists g r, s = g ++ r /\ Forall blank g /\ match r with [] => True | c :: _ => ~ blank c end.
Proof.
  induction s as [|c s (g & r & -> & B & F)]; [exists [], []; repeat split; constructor|].
  destruct (is_ascii_whitespace c) eqn:E.
  - exists (c :: g), r. split; [reflexivity|]. split; [constructor; [apply blank_ok, E|exact B]|exact F].
  - exists [], (c :: g ++ r). split; [reflexivity|]. split; [constructor|]. intros H. apply blank_ok in H. congruence.
Qed.
Lemma split_word s : exists w r, s = w ++ r /\ Forall (fun c => ~ blank c) w /\ match r with [] => True | c :: _ => blank c end.
Proof.
  induction s as [|c s (w & r & -> & B & F)]; [exists [], []; repeat split; constructor|].
  destruct (is_ascii_whitespace c) eqn:E.
  - exists [], (c :: w ++ r). split; [reflexivity|]. split; [constructor|apply blank_ok, E].
  - exists (c :: w), r. split; [reflexivity|]. split; [constructor; [|exact B]|exact F]. intros H. apply blank_ok in H. congruence.
Qed.
Lemma words_exist : forall n l, length l <= n -> exists ts, words l ts.
Proof.
  induction n as [|n IH]; intros l L; [destruct l; [exists []; apply w_none; constructor|cbn in L; lia]|].
  destruct (split_blank l) as (g & r & -> & B & F). destruct r as [|c r].
  - exists []. rewrite app_nil_r. constructor. exact B.
  - destruct (split_word (c :: r)) as (w & r' & E & Fw & Fr).
    assert (N : w <> []) by (intros ->; cbn in E; subst r'; contradiction). rewrite E in *. destruct r' as [|x r'].
    + rewrite app_nil_r in *. exists [w]. constructor; assumption.
    + destruct (IH (x :: r')) as [ts W].
      { rewrite !app_length in L. destruct w as [|w0 w]; [destruct (N eq_refl)|]. cbn [length] in *. unfold str, char in *. lia. }
      exists (w :: ts). constructor; assumption.
Qed.
Lemma tokens_words l ts : tokens l = ts <-> words l ts.
Proof.
  split; [|apply words_tokens]. intros <-. destruct (words_exist _ l (le_n _)) as [ts W]. rewrite (words_tokens _ _ W). exact W.
Qed.

(** ** Lines *)
Lemma strip_ok raw l : strip_cr raw = l <-> raw = l ++ [13%N] \/ (l = raw /\ forall r, raw <> r ++ [13%N]).
Proof.
  unfold strip_cr. destruct raw as [|x raw' _] using rev_ind.
  - cbn. split; [intros <-; right; split; [reflexivity|intros [|? ?]; discriminate]|]. intros [H|[-> _]]; [destruct l; discriminate|reflexivity].
  - rewrite rev_app_distr. cbn [rev app]. destruct (N.eqb_spec x 13) as [->|NE].
    + rewrite rev_involutive. split; [intros <-; left; reflexivity|]. intros [H|[_ H]]; [apply app_inj_tail in H; apply H|destruct (H raw' eq_refl)].
    + split; [intros <-; right; split; [reflexivity|]; intros r H; apply app_inj_tail in H; destruct H; congruence|].
      intros [H|[-> _]]; [apply app_inj_tail in H; destruct H; congruence|reflexivity].
Qed.
Lemma lines_at : forall s cur n l, ~ In 10%N cur -> (nth_error (lines_of cur s) n = Some l <-> is_line (rev cur ++ s) (S n) l).
Proof.
  assert (CN : forall p : str, ~ In 10%N p -> count_occ N.eq_dec p 10%N = 0) by (intros p H; apply count_occ_not_In, H).
  induction s as [|c s IH]; intros cur n l NI; cbn [lines_of].
  - unfold is_line. rewrite app_nil_r. split.
    + destruct cur as [|x cur]; [destruct n; discriminate|]. destruct n as [|n]; [|destruct n; discriminate]. intros [= <-].
      exists [], (rev (x :: cur)), []. split; [rewrite app_nil_r; reflexivity|]. split; [left; reflexivity|]. split; [reflexivity|].
      split; [intros I; apply NI, in_rev; exact I|]. left. split; [reflexivity|]. split; [|reflexivity].
      intros E. apply (f_equal (@length _)) in E. rewrite rev_length in E. discriminate.
    + intros (before & raw & after & E & Hb & Hn & Hr & Hc).
      assert (N10 : ~ In 10%N (before ++ raw ++ after)) by (rewrite <- E; intros I; apply NI, in_rev; exact I).
      destruct Hb as [->|(b & ->)]; [|destruct N10; rewrite !in_app_iff; left; right; left; reflexivity].
      destruct Hc as [(-> & Nr & ->)|((a & ->) & _)]; [|destruct N10; rewrite !in_app_iff; right; right; left; reflexivity].
      cbn [app count_occ] in *. injection Hn as ->. rewrite app_nil_r in E. destruct cur as [|x cur]; [cbn in E; congruence|]. cbn [nth_error]. congruence.
  - destruct (N.eqb_spec c 10) as [->|NE].
    + assert (NR : ~ In 10%N (rev cur)) by (intros I; apply NI, in_rev; exact I).
      destruct n as [|n]; cbn [nth_error].
      * unfold is_line. split.
        -- intros [= E]. exists [], (rev cur), (10%N :: s). split; [reflexivity|]. split; [left; reflexivity|]. split; [reflexivity|].
           split; [exact NR|]. right. split; [eexists; reflexivity|]. apply strip_ok, E.
        -- intros (before & raw & after & E & Hb & Hn & Hr & Hc). injection Hn as Hn.
           destruct Hb as [->|(b & ->)]; [|rewrite count_occ_app in Hn; cbn in Hn; lia]. cbn [app] in E.
           destruct Hc as [(-> & _ & _)|((a & ->) & Hl)].
           { rewrite app_nil_r in E. subst raw. destruct Hr. apply in_app_iff. right. left. reflexivity. }
           apply strip_ok in Hl. subst l. f_equal. f_equal.
           clear - E NR Hr. revert E Hr. generalize (rev cur) NR. intros p. revert raw.
           induction p as [|x p IH]; intros [|y raw] NP E Hr; cbn [app] in E; auto.
           ++ injection E as E _. destruct Hr. left. congruence.
           ++ injection E as E _. destruct NP. left. congruence.
           ++ injection E as -> E. f_equal. apply IH; [intros I; apply NP; right; exact I|exact E|intros I; apply Hr; right; exact I].
      * rewrite (IH [] n l (fun H => H)). unfold is_line. cbn [rev app]. split.
        -- intros (before & raw & after & -> & Hb & Hn & Hr & Hc). exists (rev cur ++ [10%N] ++ before), raw, after.
           split; [rewrite <- !app_assoc; reflexivity|]. split; [right; destruct Hb as [->|(b & ->)]; [exists (rev cur); reflexivity|exists (rev cur ++ [10%N] ++ b); rewrite <- !app_assoc; reflexivity]|].
           split; [|auto]. injection Hn as ->. rewrite !count_occ_app, (CN _ NR). reflexivity.
        -- intros (before & raw & after & E & Hb & Hn & Hr & Hc). injection Hn as Hn.
           destruct Hb as [->|(b & ->)]; [discriminate|]. rewrite count_occ_app in Hn. cbn in Hn.
           assert (Q : exists b', b ++ [10%N] = rev cur ++ [10%N] ++ b' /\ (b' = [] \/ exists b2, b' = b2 ++ [10%N])).
           { rewrite <- app_assoc in E. clear - E NR. revert b E. generalize (rev cur) NR. intros p. induction p as [|x p IH]; intros NP [|y b] E; cbn [app] in E.
             - exists []. split; [reflexivity|auto].
             - injection E as <- E. exists (b ++ [10%N]). split; [reflexivity|]. right. exists b. reflexivity.
             - injection E as -> _. destruct NP. left. reflexivity.
             - injection E as -> E. destruct (IH (fun I => NP (or_intror I)) b E) as (b' & Eb & Hb). exists b'. cbn [app]. rewrite Eb. auto. }
           destruct Q as (b' & Eb & Hb). rewrite Eb in E. exists b', raw, after. split.
           { rewrite <- !app_assoc in E. apply app_inv_head in E. cbn [app] in E. injection E as E. exact E. }
           split; [exact Hb|]. split; [|auto].
           apply (f_equal (fun q => count_occ N.eq_dec q 10%N)) in Eb. rewrite !count_occ_app, (CN _ NR) in Eb. cbn in Eb. lia.
    + rewrite (IH (c :: cur) n l) by (intros [H|H]; [congruence|contradiction]). cbn [rev]. rewrite <- app_assoc. reflexivity.
Qed.
Lemma lines_ok text n l : nth_error (lines text) n = Some l <-> is_line text (S n) l.
Proof. apply (lines_at text [] n l). intros []. Qed.

(** ** Comments *)
Lemma trim_start_snoc ws s c : ws c = false -> trim_start ws (s ++ [c]) = trim_start ws s ++ [c].
Proof. intros H. induction s as [|x s IH]; cbn [app trim_start]; [rewrite H; reflexivity|]. destruct (ws x); [exact IH|reflexivity]. Qed.
Lemma trim_start_ok ws s : exists g, s = g ++ trim_start ws s /\ Forall (fun x => ws x = true) g /\
  match trim_start ws s with [] => True | c :: _ => ws c = false end.
Proof.
  induction s as [|c s (g & E & F & H)]; cbn [trim_start]; [exists []; repeat split; constructor|]. destruct (ws c) eqn:W.
  - exists (c :: g). cbn [app]. rewrite <- E. auto.
  - exists []. repeat split; auto.
Qed.
Lemma is_rule_line_ok ws l : is_rule_line ws l = true <-> rule_line ws l.
Proof.
  unfold is_rule_line, trim, rule_line. destruct (trim_start_ok ws l) as (g & E & F & H). destruct (trim_start ws l) as [|c r].
  - cbn. split; [discriminate|]. rewrite app_nil_r in E. subst g. intros (sp & c & rest & -> & _ & W & _).
    apply Forall_app in F. destruct F as [_ F]. inversion F; congruence.
  - cbn [rev]. rewrite (trim_start_snoc ws _ c H), rev_app_distr. cbn [rev app]. rewrite negb_true_iff, N.eqb_neq. split.
    + intros N. exists g, c, r. auto.
    + intros (sp & c' & rest & E' & F' & W' & N). enough (c = c') by congruence.
      rewrite E in E'. clear - E' F F' W' H. revert sp F' E'. induction F as [|x g Hx F IH]; intros [|y sp] F' E'; cbn [app] in E'.
      * congruence.
      * inversion F'; subst. congruence.
      * congruence.
      * inversion F'; subst. injection E' as _ E'. eauto.
Qed.

(** ** Tables *)
Lemma results_in ws ls : forall k n p, In (n, p) (line_results ws k ls) <->
  exists i l, nth_error ls i = Some l /\ n = k + i + 1 /\ is_rule_line ws l = true /\ p = p_rule (tokens l).
Proof.
  induction ls as [|l ls IH]; intros k n p; cbn [line_results].
  - split; [intros []|]. intros (i & l & H & _). destruct i; discriminate.
  - rewrite in_app_iff, IH. split.
    + intros [I|(i & l' & H & -> & R)].
      * destruct (is_rule_line ws l) eqn:E; [|destruct I]. destruct I as [[= <- <-]|[]]. exists 0, l. split; [reflexivity|]. split; [lia|auto].
      * exists (S i), l'. split; [exact H|]. split; [lia|exact R].
    + intros ([|i] & l' & H & -> & R & ->).
      * injection H as ->. left. rewrite R. left. f_equal; lia.
      * right. exists i, l'. split; [exact H|]. split; [lia|auto].
Qed.
Lemma results_increasing ws ls : forall k, increasing (map fst (line_results ws k ls)).
Proof.
  induction ls as [|l ls IH]; intros k; cbn [line_results]; [exact I|].
  destruct (is_rule_line ws l); cbn [app map]; [|apply IH]. cbn [increasing fst]. split; [|apply IH].
  apply Forall_forall. intros m I. apply in_map_iff in I. destruct I as ([m' p] & <- & I). apply results_in in I. destruct I as (i & l' & _ & -> & _). cbn [fst]. lia.
Qed.
Lemma good_in l n r : In (n, r) (good_lines l) <-> exists rest, In (n, Parsed r rest) l.
Proof.
  induction l as [|[m p] l IH]; cbn [good_lines].
  - split; [intros []|intros (x & [])].
  - destruct p as [r' rest'|e|]; cbn [In]; rewrite IH.
    + split; [intros [[= <- <-]|(x & H)]; eauto|]. intros (x & [[= <- <- <-]|H]); eauto.
    + split; [intros (x & H); eauto|]. intros (x & [H|H]); [discriminate|eauto].
    + split; [intros (x & H); eauto|]. intros (x & [H|H]); [discriminate|eauto].
Qed.
Lemma bad_in l n e : In (n, e) (bad_lines l) <-> In (n, Failed e) l.
Proof.
  induction l as [|[m p] l IH]; cbn [bad_lines]; [reflexivity|].
  destruct p as [r' rest'|e'|]; cbn [In]; rewrite IH; split; intros H.
  - auto.
  - destruct H as [H|H]; [discriminate|exact H].
  - destruct H as [[= <- <-]|H]; auto.
  - destruct H as [[= <- <-]|H]; auto.
  - auto.
  - destruct H as [H|H]; [discriminate|exact H].
Qed.
Lemma increasing_sub {A B} (l : list (nat * A)) (g : list (nat * B)) :
  (exists f : nat * A -> option (nat * B), (forall x y, f x = Some y -> fst y = fst x) /\ g = flat_map (fun x => match f x with Some y => [y] | None => [] end) l) ->
  increasing (map fst l) -> increasing (map fst g).
Proof.
  intros (f & Hf & ->). induction l as [|x l IH]; [auto|]. cbn [map increasing flat_map]. intros [H1 H2].
  destruct (f x) as [y|] eqn:E; [|auto]. cbn [app map increasing]. split; [|auto]. rewrite (Hf _ _ E). apply Forall_forall.
  intros m I. apply in_map_iff in I. destruct I as (z & <- & I). apply in_flat_map in I. destruct I as (x' & I & Iz).
  destruct (f x') as [y'|] eqn:E'; [|destruct Iz]. destruct Iz as [<-|[]]. rewrite (Hf _ _ E').
  rewrite Forall_forall in H1. apply H1, in_map, I.
Qed.
Lemma good_increasing l : increasing (map fst l) -> increasing (map fst (good_lines l)).
Proof.
  apply increasing_sub. exists (fun x => match snd x with Parsed r _ => Some (fst x, r) | _ => None end). split.
  - intros [n p] y. cbn. destruct p; intros [= <-]; reflexivity.
  - induction l as [|[n p] l IH]; [reflexivity|]. cbn [good_lines flat_map snd fst]. destruct p; cbn [app]; rewrite IH; reflexivity.
Qed.
Lemma bad_increasing l : increasing (map fst l) -> increasing (map fst (bad_lines l)).
Proof.
  apply increasing_sub. exists (fun x => match snd x with Failed e => Some (fst x, e) | _ => None end). split.
  - intros [n p] y. cbn. destruct p; intros [= <-]; reflexivity.
  - induction l as [|[n p] l IH]; [reflexivity|]. cbn [bad_lines flat_map snd fst]. destruct p; cbn [app]; rewrite IH; reflexivity.
Qed.
