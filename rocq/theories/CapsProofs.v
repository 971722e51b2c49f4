(** The capital signs are those of CapsSpec.v. *)
From Coq Require Import Permutation Sorted.
From Verif Require Import Base BaseProofs RuleModel TranslationModel TableModel ConstraintModel IndicatorModel
  CapsSpec IndicatorProofs.

(** ** Runs *)
Lemma at_pos_lt chars f p : at_pos chars f p = true -> p < length chars.
Proof.
  unfold at_pos. destruct (nth_error chars p) eqn:E; [|discriminate]. intros _. apply nth_error_Some.
  intros X. pose proof (eq_trans (eq_sym E) X). discriminate.
Qed.
Lemma at_pos_app a c r f : at_pos (a ++ c :: r) f (length a) = f c.
Proof. unfold at_pos. rewrite nth_error_app2, Nat.sub_diag by lia. reflexivity. Qed.

Section Caps.
Variable u : caps_ind.
Variable chars : str.
Notation letter := (letter u chars).
Notation capital := (capital u chars).
Notation word_char := (word_char u chars).
Lemma letter_word p : letter p -> word_char p.
Proof.
  unfold CapsSpec.letter, CapsSpec.word_char, at_char. destruct (nth_error chars p); [|discriminate].
  intros ->. reflexivity.
Qed.
Lemma letter_dec p : {letter p} + {~ letter p}.
Proof. change ({at_pos chars (is_letter u) p = true} + {at_pos chars (is_letter u) p <> true}). destruct (at_pos chars (is_letter u) p); [left|right]; congruence. Qed.
Lemma capital_iff p : capital_at u chars p = true <-> capital p.
Proof. unfold capital_at, CapsSpec.capital, CapsSpec.letter. apply andb_true_iff. Qed.
Lemma capital_niff p : capital_at u chars p = false <-> ~ capital p.
Proof. rewrite <- capital_iff. destruct (capital_at u chars p); split; congruence. Qed.
Lemma not_letter p : at_pos chars (is_letter u) p = false <-> ~ letter p.
Proof. change (at_pos chars (is_letter u) p = false <-> at_pos chars (is_letter u) p <> true). destruct (at_pos chars (is_letter u) p); split; congruence. Qed.

(** the words of the text *)
Lemma spans_words s : forall a pos, chars = a ++ s -> pos = length a ->
  (text_words u chars pos (spans_from (is_word_char u) s pos None)) /\
  (forall st, st < pos -> (forall q, st <= q < pos -> word_char q) ->
     exists e ws, spans_from (is_word_char u) s pos (Some st) = (st, e) :: ws /\
       pos <= e <= length chars /\ (forall q, pos <= q < e -> word_char q) /\ ~ word_char e /\ text_words u chars e ws).
Proof.
  induction s as [|c r IH]; intros a pos E P.
  - rewrite app_nil_r in E. subst a pos.
    assert (X : forall q, length chars <= q -> ~ word_char q) by (intros q L H; apply (at_pos_lt chars (is_word_char u)) in H; lia).
    cbn [spans_from]. split; [constructor; exact X|]. intros st L H. exists (length chars), [].
    split; [reflexivity|]. split; [lia|]. split; [intros; lia|]. split; [apply X; lia|]. constructor. exact X.
  - assert (HC : at_pos chars (is_word_char u) pos = is_word_char u c) by (subst; apply at_pos_app).
    assert (LC : pos < length chars) by (subst; rewrite app_length; simpl; lia).
    destruct (IH (a ++ [c]) (S pos)) as [IH1 IH2]; [rewrite <- app_assoc; exact E|rewrite app_length; cbn [length]; unfold char in *; lia|].
    cbn [spans_from]. destruct (is_word_char u c) eqn:EC.
    + assert (W : word_char pos) by exact HC. split.
      * destruct (IH2 pos) as (e & ws & -> & L & H1 & H2 & H3); [lia|intros q Hq; replace q with pos by lia; exact W|].
        apply TW_word; auto; try lia. intros q Hq. destruct (Nat.eq_dec q pos) as [->|]; [exact W|apply H1; lia].
      * intros st L H. destruct (IH2 st) as (e & ws & -> & L' & H1 & H2 & H3); [lia| |].
        { intros q Hq. destruct (Nat.eq_dec q pos) as [->|]; [exact W|apply H; lia]. }
        exists e, ws. split; [reflexivity|]. split; [lia|]. split; [|auto].
        intros q Hq. destruct (Nat.eq_dec q pos) as [->|]; [exact W|apply H1; lia].
    + assert (W : ~ word_char pos) by (change (at_pos chars (is_word_char u) pos <> true); congruence).
      assert (EXT : text_words u chars pos (spans_from (is_word_char u) r (S pos) None)).
      { destruct (spans_from (is_word_char u) r (S pos) None) as [|[s e] ws].
        - inversion IH1 as [? X|]; subst. constructor. intros q Hq. destruct (Nat.eq_dec q (length a)) as [->|]; [exact W|]. apply X. lia.
        - inversion IH1 as [|? ? ? ? X1 X2 X3 X4 X5 X6 X7]; subst. constructor; auto; [lia|]. intros q Hq. destruct (Nat.eq_dec q (length a)) as [->|]; [exact W|]. apply X4. lia. }
      split; [exact EXT|]. intros st L H. exists pos, (spans_from (is_word_char u) r (S pos) None).
      split; [reflexivity|]. split; [lia|]. split; [intros; lia|]. auto.
Qed.
Lemma find_words_spec : text_words u chars 0 (find_words u chars).
Proof.
  unfold find_words, find_spans. rewrite Nat.sub_0_r. cbn [skipn]. rewrite firstn_all.
  apply (spans_words chars [] 0); reflexivity.
Qed.

(** ** Words in capitals *)
Lemma upto_In a b q : In q (upto a b) <-> a <= q < b.
Proof. unfold upto. rewrite in_seq. lia. Qed.
Lemma letters_In s e q : In q (letters_in u chars s e) <-> s <= q < e /\ letter q.
Proof. unfold letters_in. rewrite filter_In, upto_In. reflexivity. Qed.
Lemma filter_sorted (f : nat -> bool) l : StronglySorted lt l -> StronglySorted lt (filter f l).
Proof.
  induction 1 as [|x l H IH F]; cbn [filter]; [constructor|]. destruct (f x); [|exact IH]. constructor; [exact IH|].
  apply Forall_forall. intros y Hy. apply filter_In in Hy. rewrite Forall_forall in F. apply F, Hy.
Qed.
Lemma seq_sorted n : forall a, StronglySorted lt (seq a n).
Proof.
  induction n as [|n IH]; intros a; cbn [seq]; constructor; [apply IH|]. apply Forall_forall. intros y Hy. apply in_seq in Hy. lia.
Qed.
Lemma letters_sorted s e : StronglySorted lt (letters_in u chars s e).
Proof. apply filter_sorted, seq_sorted. Qed.
Lemma sorted_hd (l : list nat) x : StronglySorted lt l -> In x l -> hd 0 l <= x.
Proof. intros H I. destruct H as [|y l H F]; [destruct I|]. cbn [hd]. destruct I as [<-|I]; [lia|]. rewrite Forall_forall in F. specialize (F x I). lia. Qed.
Lemma sorted_last (l : list nat) x : StronglySorted lt l -> In x l -> x <= last l 0 /\ In (last l 0) l.
Proof.
  intros H0. revert x. induction H0 as [|y l H IH F]; intros x I; [destruct I|]. destruct l as [|z l].
  - cbn [last]. destruct I as [<-|[]]. split; [lia|left; reflexivity].
  - change (last (y :: z :: l) 0) with (last (z :: l) 0). destruct I as [<-|I].
    + destruct (IH z (or_introl eq_refl)) as [_ Q]. split; [|right; exact Q]. rewrite Forall_forall in F.
      specialize (F _ Q). lia.
    + destruct (IH x I). split; [assumption|right; assumption].
Qed.
Lemma all_capitals_iff s e : (existsb (at_pos chars (is_upper u)) (letters_in u chars s e) && forallb (at_pos chars (is_upper u)) (letters_in u chars s e))%bool = true
  <-> all_capitals u chars s e.
Proof.
  rewrite andb_true_iff, existsb_exists, forallb_forall. unfold all_capitals. split.
  - intros [(q & Hq & _) A]. apply letters_In in Hq. split; [exists q; exact Hq|]. intros q' Hq' L. split; [exact L|]. apply A, letters_In. auto.
  - intros [(q & Hq & L) A]. split; [exists q; split; [apply letters_In; auto|apply A; assumption]|].
    intros q' Hq'. apply letters_In in Hq'. apply A; apply Hq'.
Qed.
Lemma count_one s e o c : s <= o -> o < c -> c <= e -> letter o -> (forall q, s <= q < e -> letter q -> o <= q < c) ->
  length (letters_in u chars s e) = 1 <-> (forall q, o < q < c -> ~ letter q).
Proof.
  intros A B C L H. pose proof (letters_sorted s e) as S0. assert (I : In o (letters_in u chars s e)) by (apply letters_In; split; [lia|exact L]).
  split.
  - intros E q Hq Lq. assert (I' : In q (letters_in u chars s e)) by (apply letters_In; split; [lia|exact Lq]).
    destruct (letters_in u chars s e) as [|x [|y l]]; try discriminate. destruct I as [<-|[]], I' as [<-|[]]. lia.
  - intros N. destruct (letters_in u chars s e) as [|x [|y l]] eqn:E; [destruct I|reflexivity|exfalso].
    assert (X : forall z, In z (x :: y :: l) -> z = o).
    { intros z Hz. rewrite <- E in Hz. apply letters_In in Hz. destruct Hz as [Hz1 Hz2]. pose proof (H z Hz1 Hz2) as Hz3.
      destruct (Nat.eq_dec z o) as [|NE]; [assumption|]. exfalso. apply (N z); [lia|exact Hz2]. }
    inversion S0 as [|? ? _ F]; subst. inversion F; subst. rewrite (X x), (X y) in *; simpl; auto. lia.
Qed.
Lemma classify_some s e o c k : classify_word u chars s e = Some (o, c, k) ->
  in_capitals u chars (mk_cap_word s e o c) /\ (k = 1 <-> forall q, o < q < c -> ~ letter q).
Proof.
  unfold classify_word. destruct (existsb _ _ && forallb _ _)%bool eqn:E; [|discriminate]. apply all_capitals_iff in E.
  intros [= <- <- <-]. pose proof (letters_sorted s e) as S0.
  assert (NE : letters_in u chars s e <> []) by (destruct E as [(q & Hq & L) _]; intros X; assert (In q []) by (rewrite <- X; apply letters_In; auto); contradiction).
  assert (IH : In (hd 0 (letters_in u chars s e)) (letters_in u chars s e)) by (destruct (letters_in u chars s e); [congruence|left; reflexivity]).
  destruct (sorted_last _ _ S0 IH) as [LE IL].
  pose proof (proj1 (letters_In _ _ _) IH) as [A1 A2]. pose proof (proj1 (letters_In _ _ _) IL) as [B1 B2].
  set (o := hd 0 (letters_in u chars s e)) in *. set (z := last (letters_in u chars s e) 0) in *.
  assert (IN : forall q, s <= q < e -> letter q -> o <= q < S z).
  { intros q Hq L. assert (I : In q (letters_in u chars s e)) by (apply letters_In; auto).
    pose proof (sorted_hd _ _ S0 I). pose proof (proj1 (sorted_last _ _ S0 I)). unfold o, z. lia. }
  split.
  - unfold in_capitals; cbn [cw_start cw_end cw_open cw_close]. split; [exact E|]. repeat split; try lia; auto.
    + apply E; auto.
    + replace (S z - 1) with z by lia. exact B2.
    + replace (S z - 1) with z by lia. apply E; auto.
    + intros; apply IN; auto.
    + apply IN; auto.
  - apply (count_one s e); auto; lia.
Qed.
Lemma classify_none s e : classify_word u chars s e = None -> ~ all_capitals u chars s e.
Proof.
  unfold classify_word. destruct (existsb _ _ && forallb _ _)%bool eqn:E; [discriminate|]. intros _ A. apply all_capitals_iff in A. congruence.
Qed.

(** ** Stretches *)
Lemma run_scan_spec o : forall todo j close count c' k' j', run_scan u chars todo j close count = (c', k', j') ->
  o < close <= j -> capital o -> capital (close - 1) -> (forall q, o <= q < close -> letter q -> capital q) ->
  (forall q, close <= q < j -> ~ letter q) -> 0 < count -> (count = 1 <-> forall q, o < q < close -> ~ letter q) ->
  o < c' <= j' /\ j' <= j + todo /\ capital (c' - 1) /\ (forall q, o <= q < c' -> letter q -> capital q) /\
  (forall q, c' <= q < j' -> ~ letter q) /\ (k' = 1 <-> forall q, o < q < c' -> ~ letter q) /\
  (j' = j + todo \/ letter j' /\ ~ capital j').
Proof.
  induction todo as [|t IH]; intros j close count c' k' j' E A B C D F G H; cbn [run_scan] in E.
  - injection E as <- <- <-. split; [lia|]. split; [lia|]. split; [exact C|]. split; [exact D|]. split; [exact F|]. split; [exact H|]. left; lia.
  - destruct (at_pos chars (is_letter u) j) eqn:EL.
    + destruct (at_pos chars (is_upper u) j) eqn:EU.
      * assert (CJ : capital j) by (split; assumption). apply IH in E; auto; try lia.
        -- destruct E as (E1 & E2 & E3). split; [exact E1|]. split; [lia|]. replace (j + S t) with (S j + t) by lia. exact E3.
        -- replace (S j - 1) with j by lia. exact CJ.
        -- intros q Hq L. destruct (Nat.eq_dec q j) as [->|]; [exact CJ|]. destruct (Nat.lt_ge_cases q close); [apply D; auto; lia|].
           exfalso. apply (F q); [lia|exact L].
        -- split; [intros X; exfalso; lia|]. intros X. exfalso. apply (X j); [lia|exact EL].
      * injection E as <- <- <-. split; [lia|]. split; [lia|]. split; [exact C|]. split; [exact D|]. split; [exact F|]. split; [exact H|].
        right. split; [exact EL|]. intros [_ X]. change (at_pos chars (is_upper u) j = true) in X. congruence.
    + apply IH in E; auto; try lia.
      * destruct E as (E1 & E2 & E3). split; [exact E1|]. split; [lia|]. replace (j + S t) with (S j + t) by lia. exact E3.
      * intros q Hq. destruct (Nat.eq_dec q j) as [->|]; [apply not_letter, EL|]. apply F. lia.
Qed.
Lemma next_letter_spec c e : match next_letter u chars c e with
  | Some n => c <= n < e /\ letter n /\ forall q, c <= q < n -> ~ letter q
  | None => forall q, c <= q < e -> ~ letter q
  end.
Proof.
  unfold next_letter. pose proof (letters_sorted c e) as S0. destruct (letters_in u chars c e) as [|n l] eqn:E; cbn [hd_error].
  - intros q Hq L. assert (In q []) by (rewrite <- E; apply letters_In; auto). contradiction.
  - assert (I : In n (letters_in u chars c e)) by (rewrite E; left; reflexivity). apply letters_In in I. destruct I as [I1 I2].
    split; [exact I1|]. split; [exact I2|]. intros q Hq L. assert (I : In q (n :: l)) by (rewrite <- E; apply letters_In; split; [lia|exact L]).
    pose proof (sorted_hd _ _ S0 I). simpl in *. lia.
Qed.
Definition to_stretch (r : run) : stretch := mk_stretch (ru_open r) (ru_close r) (ru_trigger r).
Definition run_count_ok (r : run) : Prop := ru_count r = 1 <-> forall q, ru_open r < q < ru_close r -> ~ letter q.
Lemma upper_runs_spec e : forall fuel i, e < fuel + i ->
  stretches u chars e i (map to_stretch (upper_runs u chars fuel i e)) /\ Forall run_count_ok (upper_runs u chars fuel i e).
Proof.
  induction fuel as [|f IH]; intros i L.
  { cbn [upper_runs map]. split; constructor. intros; lia. }
  cbn [upper_runs]. destruct (Nat.leb_spec e i) as [G|G]; [cbn [map]; split; constructor; intros; lia|].
  destruct (capital_at u chars i) eqn:EC.
  - apply capital_iff in EC. destruct (run_scan u chars (e - S i) (S i) (S i) 1) as [[c k] j] eqn:ER.
    destruct (run_scan_spec i _ _ _ _ _ _ _ ER) as (A & B & C & D & F & K & J); auto; try lia.
    { replace (S i - 1) with i by lia. exact EC. }
    { intros q Hq _. replace q with i by lia. exact EC. }
    { split; [intros _; intros; lia|reflexivity]. }
    assert (CE : c <= e).
    { lia. }
    pose proof (next_letter_spec c e) as NX. cbn [map to_stretch ru_open ru_close ru_trigger].
    destruct (IH j) as [IH1 IH2]; [lia|].
    split; [|constructor; [exact K|exact IH2]].
    destruct (next_letter u chars c e) as [n|].
    + destruct NX as (N1 & N2 & N3).
      assert (NJ : n = j).
      { destruct J as [J|[J _]].
        - exfalso. apply (F n); [lia|exact N2].
        - destruct (Nat.lt_trichotomy n j) as [X|[X|X]]; [exfalso; apply (F n); [lia|exact N2]|exact X|exfalso; apply (N3 j); [lia|exact J]]. }
      subst n. destruct J as [J|[_ J]]; [lia|]. apply ST_more; auto; try lia. all: cbn [ru_open ru_close ru_trigger]; try lia; intros; lia.
    + assert (J' : j = e).
      { destruct J as [J|[J _]]; [lia|]. destruct (Nat.eq_dec j e) as [|NE]; [assumption|]. exfalso. apply (NX j); [lia|exact J]. }
      subst j. replace (upper_runs u chars f e e) with (@nil run) by (destruct f; cbn [upper_runs]; [reflexivity|rewrite Nat.leb_refl; reflexivity]).
      cbn [map]. apply ST_last; auto; try lia. all: cbn [ru_open ru_close ru_trigger]; try lia; intros; lia.
  - apply capital_niff in EC. destruct (IH (S i)) as [IH1 IH2]; [lia|]. split; [|exact IH2].
    assert (EXT : forall l, stretches u chars e (S i) l -> stretches u chars e i l).
    { intros l H. assert (Q : forall o q, i <= q < o -> (forall q, S i <= q < o -> ~ capital q) -> ~ capital q)
        by (intros o q Hq HN; destruct (Nat.eq_dec q i) as [->|]; [exact EC|apply HN; lia]).
      inversion H; subst.
      - apply ST_none. intros q Hq. eapply Q; eauto.
      - apply ST_last; auto; [lia|]. intros q Hq. eapply Q; eauto.
      - apply ST_more; auto; [lia|]. intros q Hq. eapply Q; eauto. }
    apply EXT, IH1.
Qed.

(** ** The signs of a stretch *)
Lemma letterwise_spec o c t : ui_letter u = Some t -> exists ps, letterwise u chars o c = flat_map (signs u) (map LetterSign ps) /\
  (forall q, In q ps <-> o <= q < c /\ capital q) /\ StronglySorted lt ps.
Proof.
  intros E. exists (filter (capital_at u chars) (upto o c)). split; [|split].
  - unfold letterwise. rewrite E. induction (filter (capital_at u chars) (upto o c)) as [|q l IH]; [reflexivity|].
    cbn [map flat_map signs put]. rewrite E. cbn [put app]. rewrite <- IH. reflexivity.
  - intros q. rewrite filter_In, upto_In, capital_iff. reflexivity.
  - apply filter_sorted, seq_sorted.
Qed.
(** both [emit_run] and [emit_whole_word] *)
Definition stretch_signs (o c k : nat) (next : option nat) : list placed :=
  match (if Nat.eqb k 1 then ui_letter u else None) with
  | Some t => [(o, t)]
  | None =>
      match ui_begword u, next, ui_endword u with
      | Some b, None, _ => [(o, b)]
      | Some b, Some q, Some e => [(o, b); (q, e)]
      | _, _, _ => mode_tier u chars o c
      end
  end.
Lemma whole_signs o c k : emit_whole_word u chars (o, c, k) = stretch_signs o c k None.
Proof. unfold emit_whole_word, stretch_signs. destruct (if Nat.eqb k 1 then ui_letter u else None); [reflexivity|]. destruct (ui_begword u); reflexivity. Qed.
Lemma run_signs r : caps_emit_run u chars r = stretch_signs (ru_open r) (ru_close r) (ru_count r) (ru_trigger r).
Proof. reflexivity. Qed.
Lemma some_letter o c : ~ (forall q, o < q < c -> ~ letter q) -> exists q, o < q < c /\ letter q.
Proof.
  intros H. destruct (existsb (at_pos chars (is_letter u)) (upto (S o) c)) eqn:E.
  - apply existsb_exists in E. destruct E as (q & Hq & L). apply upto_In in Hq. exists q. split; [lia|exact L].
  - exfalso. apply H. intros q Hq L. assert (existsb (at_pos chars (is_letter u)) (upto (S o) c) = true).
    { apply existsb_exists. exists q. split; [apply upto_In; lia|exact L]. } congruence.
Qed.
Lemma stretch_signs_spec o c k next : (k = 1 <-> forall q, o < q < c -> ~ letter q) -> 
  exists m, stretch_marked u chars o c next m /\ stretch_signs o c k next = flat_map (signs u) m.
Proof.
  intros K. unfold stretch_signs.
  assert (REST : (ui_letter u = None \/ (exists q, o < q < c /\ letter q)) ->
    exists m, stretch_marked u chars o c next m /\
      match ui_begword u, next, ui_endword u with
      | Some b, None, _ => [(o, b)]
      | Some b, Some q, Some e => [(o, b); (q, e)]
      | _, _, _ => mode_tier u chars o c
      end = flat_map (signs u) m).
  { intros H. assert (MODE : ui_begword u = None \/ (next <> None /\ ui_endword u = None) ->
       exists m, stretch_marked u chars o c next m /\ mode_tier u chars o c = flat_map (signs u) m).
    { intros HM. unfold mode_tier. destruct (ui_beg u) as [b|] eqn:EB.
      - exists [ModeSigns o c]. split; [apply SM_mode; auto; congruence|]. cbn [flat_map signs]. rewrite EB, app_nil_r. unfold opt_at, put. reflexivity.
      - destruct (ui_letter u) as [t|] eqn:EL.
        + destruct H as [H|H]; [discriminate|]. destruct (letterwise_spec o c t EL) as (ps & E1 & E2 & E3).
          exists (map LetterSign ps). split; [apply SM_letters; auto; congruence|]. exact E1.
        + exists []. split; [apply SM_nothing; auto|]. unfold letterwise. rewrite EL. reflexivity. }
    destruct (ui_begword u) as [b|] eqn:EB; [|apply MODE; auto]. destruct next as [q|].
    - destruct (ui_endword u) as [e|] eqn:EE; [|apply MODE; right; split; congruence].
      exists [WordSign o c (Some q)]. split; [apply SM_word; auto; [congruence|right; congruence]|]. cbn [flat_map signs]. rewrite EB, EE. reflexivity.
    - exists [WordSign o c None]. split; [apply SM_word; auto; congruence|]. cbn [flat_map signs]. rewrite EB. reflexivity. }
  destruct (Nat.eqb_spec k 1) as [E|E].
  - destruct (ui_letter u) as [t|] eqn:EL; [|apply REST; auto].
    exists [LetterSign o]. split; [apply SM_letter; [congruence|apply K, E]|]. cbn [flat_map signs]. rewrite EL. reflexivity.
  - apply REST. right. apply some_letter. rewrite <- K. exact E.
Qed.
Lemma runs_marked rs : Forall run_count_ok rs -> exists m, stretches_marked u chars (map to_stretch rs) m /\
  flat_map (caps_emit_run u chars) rs = flat_map (signs u) m.
Proof.
  induction 1 as [|r rs H F IH]; [exists []; split; [constructor|reflexivity]|].
  destruct IH as (ms & M & E). destruct (stretch_signs_spec (ru_open r) (ru_close r) (ru_count r) (ru_trigger r) H) as (m & M1 & E1).
  exists (m ++ ms). split; [cbn [map]; constructor; assumption|]. cbn [flat_map]. rewrite run_signs, E1, E, flat_map_app. reflexivity.
Qed.
Lemma partial_marked s e : ~ all_capitals u chars s e -> exists ss m,
  part_fits u chars (Other s e ss) /\ part_marked u chars (Other s e ss) m /\
  emit_partial_word u chars s e = flat_map (signs u) m.
Proof.
  intros N. unfold emit_partial_word. destruct (upper_runs_spec e (S e) s) as [R1 R2]; [lia|].
  destruct (runs_marked _ R2) as (m & M & E). eexists _, m. split; [split; [exact N|exact R1]|]. split; [constructor; exact M|exact E].
Qed.

(** ** Groups *)
Definition triple (w : cap_word) (k : nat) : nat * nat * nat := (cw_open w, cw_close w, k).
Definition good (w : cap_word) (k : nat) : Prop := in_capitals u chars w /\ (k = 1 <-> forall q, cw_open w < q < cw_close w -> ~ letter q).
Lemma whole_marked ws ks : Forall2 good ws ks -> exists m, words_marked u chars ws m /\
  flat_map (emit_whole_word u chars) (map (fun x => triple (fst x) (snd x)) (combine ws ks)) = flat_map (signs u) m.
Proof.
  induction 1 as [|w k ws ks (H & K) F IH]; [exists []; split; [constructor|reflexivity]|].
  destruct IH as (ms & M & E). destruct (stretch_signs_spec (cw_open w) (cw_close w) k None K) as (m & M1 & E1).
  exists (m ++ ms). split; [constructor; assumption|]. cbn [combine map flat_map fst snd]. unfold triple at 1. rewrite whole_signs, E1, E, flat_map_app. reflexivity.
Qed.
Lemma group_marked ws ks n : ws <> [] -> Forall2 good ws ks -> counted u chars ws n -> exists m,
  part_marked u chars (Group ws) m /\ flush u chars (map (fun x => triple (fst x) (snd x)) (combine ws ks)) n = flat_map (signs u) m.
Proof.
  intros NE F C. destruct (exists_last NE) as (ws0 & w & EW). 
  assert (EK : exists ks0 k, ks = ks0 ++ [k] /\ Forall2 good ws0 ks0 /\ good w k).
  { rewrite EW in F. apply Forall2_app_inv_l in F. destruct F as (ks0 & l & F1 & F2 & ->). inversion F2 as [|? k ? l' G G']; subst. inversion G'; subst.
    exists ks0, k. auto. }
  destruct EK as (ks0 & k & -> & F0 & Gk).
  destruct (whole_marked ws (ks0 ++ [k]) F) as (mw & Mw & Ew).
  assert (LEN : length ws0 = length ks0) by (clear - F0; induction F0; cbn [length]; congruence).
  rewrite EW in Ew |- *. assert (CB : combine (ws0 ++ [w]) (ks0 ++ [k]) = combine ws0 ks0 ++ [(w, k)]).
  { clear - LEN. revert ks0 LEN. induction ws0 as [|a l IH]; intros [|b l'] L; try discriminate; [reflexivity|].
    cbn [app combine]. f_equal. apply IH. cbn in L. lia. }
  rewrite CB in *. set (g := map (fun x => triple (fst x) (snd x)) (combine ws0 ks0 ++ [(w, k)])) in *.
  assert (GE : exists a b, g = a :: b /\ last b a = triple w k /\ fst (fst a) = first_open (ws0 ++ [w])).
  { unfold g. destruct ws0 as [|w1 ws1], ks0 as [|k1 ks1]; try discriminate.
    - exists (triple w k), []. auto.
    - cbn [combine map app]. exists (triple w1 k1), (map (fun x => triple (fst x) (snd x)) (combine ws1 ks1 ++ [(w, k)])). split; [reflexivity|]. split; [|reflexivity].
      rewrite map_app. cbn [map]. rewrite last_last. reflexivity. }
  destruct GE as ([[fo fc] fk] & b & EG & EL & EF). cbn [fst] in EF. rewrite EG in *. clear g EG. subst fo.
  unfold flush, emit_group. rewrite EL. unfold triple at 1. rewrite EW in C.
  destruct (stretch_signs_spec (cw_open w) (cw_close w) k None (proj2 Gk)) as (ml & Ml & El).
  destruct (N.leb_spec (ui_len u) (N.of_nat n)) as [L|L].
  - destruct (ui_begphrase u) as [bp|] eqn:EP.
    + destruct (ui_endphrase u) as [ep|] eqn:EE.
      * destruct (ui_before u) eqn:EB.
        -- exists (PhraseOpen (first_open (ws0 ++ [w])) (cw_open w) :: ml). split; [eapply PM_before; eauto; congruence|].
           cbn [flat_map signs]. rewrite EP, whole_signs, El. reflexivity.
        -- exists [PhraseSigns (first_open (ws0 ++ [w])) (cw_close w)]. split; [eapply PM_phrase; eauto; congruence|].
           cbn [flat_map signs]. rewrite EP, EE. reflexivity.
      * exists [PhraseSigns (first_open (ws0 ++ [w])) (cw_close w)]. split; [eapply PM_phrase; eauto; congruence|].
        cbn [flat_map signs]. rewrite EP, EE, app_nil_r. reflexivity.
    + destruct (ui_beg u) as [bg|] eqn:EB.
      * exists [ModeSigns (first_open (ws0 ++ [w])) (cw_close w)]. split; [eapply PM_mode; eauto; congruence|].
        cbn [flat_map signs]. rewrite EB, app_nil_r. reflexivity.
      * exists mw. split; [eapply PM_words; eauto; rewrite <- EW; exact Mw|]. exact Ew.
  - exists mw. split; [eapply PM_words; eauto; rewrite <- EW; exact Mw|]. exact Ew.
Qed.

Lemma counted_snoc ws w w' n : counted u chars (ws ++ [w]) n ->
  (spaced u chars (cw_close w) (cw_open w') -> counted u chars ((ws ++ [w]) ++ [w']) (S n)) /\
  (~ spaced u chars (cw_close w) (cw_open w') -> counted u chars ((ws ++ [w]) ++ [w']) n).
Proof.
  revert n. induction ws as [|a ws IH]; intros n H.
  - inversion H; subst. cbn [app]. split; intros X; [apply CN_new|apply CN_same]; auto; constructor.
  - cbn [app] in *. destruct (ws ++ [w]) as [|b l] eqn:E; [destruct ws; discriminate|]. cbn [app] in *.
    inversion H as [|? ? ? m SP C|? ? ? m SP C]; subst.
    + destruct (IH _ C) as [I1 I2]. split; intros X; (apply CN_new; [exact SP|]); auto.
    + destruct (IH _ C) as [I1 I2]. split; intros X; (apply CN_same; [exact SP|]); auto.
Qed.
Lemma spaced_iff a b : existsb (at_pos chars (is_space u)) (upto a b) = true <-> spaced u chars a b.
Proof.
  rewrite existsb_exists. unfold spaced. split; intros (q & A & B); exists q; split; auto; apply upto_In; exact A.
Qed.
Definition ends (w : cap_word) : nat * nat := (cw_start w, cw_end w).
Definition group_state (from : nat) (gs : list cap_word) (words : nat) (prev : option nat) : Prop :=
  gs = [] /\ words = 0 /\ prev = None \/
  exists gs0 w, gs = gs0 ++ [w] /\ counted u chars gs words /\ prev = Some (cw_close w) /\ cw_close w <= from.
Lemma Forall2_snoc {A B} (P : A -> B -> Prop) l l' a b : Forall2 P l l' -> P a b -> Forall2 P (l ++ [a]) (l' ++ [b]).
Proof. intros F H. apply Forall2_app; [exact F|constructor; [exact H|constructor]]. Qed.
Lemma combine_snoc {A B} (l : list A) (l' : list B) a b : length l = length l' -> combine (l ++ [a]) (l' ++ [b]) = combine l l' ++ [(a, b)].
Proof.
  revert l'. induction l as [|x l IH]; intros [|y l'] L; try discriminate; [reflexivity|]. cbn [app combine]. f_equal. apply IH. cbn in L. lia.
Qed.
Lemma flushed gs ks from words prev : Forall2 good gs ks -> group_state from gs words prev -> exists parts ms,
  flush u chars (map (fun x => triple (fst x) (snd x)) (combine gs ks)) words = flat_map (signs u) ms /\
  flat_map part_words parts = map ends gs /\ Forall (part_fits u chars) parts /\ parts_marked u chars parts ms /\
  (parts = [] \/ parts = [Group gs]).
Proof.
  intros F [(-> & -> & ->)|(gs0 & w & E & C & _)].
  - inversion F; subst. exists [], []. repeat split; auto; constructor.
  - assert (NE : gs <> []) by (rewrite E; destruct gs0; discriminate).
    destruct (group_marked gs ks words NE F C) as (m & M & EM). exists [Group gs], (m ++ []).
    split; [rewrite app_nil_r; exact EM|]. split; [cbn [flat_map part_words]; apply app_nil_r|].
    split; [|split; [repeat constructor; exact M|right; reflexivity]].
    constructor; [|constructor]. split; [exact NE|]. clear - F. induction F as [|? ? ? ? [H _]]; constructor; auto.
Qed.
Lemma parts_marked_app a ma b mb : parts_marked u chars a ma -> parts_marked u chars b mb -> parts_marked u chars (a ++ b) (ma ++ mb).
Proof. induction 1 as [|x l m ms H _ IH]; intros B; [exact B|]. cbn [app]. rewrite <- app_assoc. constructor; auto. Qed.
Lemma caps_words_spec ws : forall from gs ks words prev, text_words u chars from ws -> Forall2 good gs ks ->
  group_state from gs words prev -> exists l parts ms,
  caps_words u chars ws (map (fun x => triple (fst x) (snd x)) (combine gs ks)) words prev = Ok l /\
  flat_map part_words parts = map ends gs ++ ws /\ Forall (part_fits u chars) parts /\ apart parts /\
  parts_marked u chars parts ms /\ l = flat_map (signs u) ms.
Proof.
  induction ws as [|[s e] ws IH]; intros from gs ks words prev TW F G.
  - destruct (flushed _ _ _ _ _ F G) as (parts & ms & E1 & E2 & E3 & E4 & E5). exists (flush u chars (map (fun x => triple (fst x) (snd x)) (combine gs ks)) words), parts, ms.
    split; [reflexivity|]. split; [rewrite app_nil_r; exact E2|]. split; [exact E3|]. split; [destruct E5 as [-> | ->]; cbn [apart]; auto|]. auto.
  - inversion TW as [|? ? ? ? T1 T2 T3 T4 T5 T6 T7]; subst. cbn [caps_words].
    destruct (classify_word u chars s e) as [[[o c] k]|] eqn:EC.
    + destruct (classify_some _ _ _ _ _ EC) as [IC K]. set (w' := mk_cap_word s e o c) in *.
      assert (GD : good w' k) by (split; assumption).
      assert (OC : s <= o /\ o < c /\ c <= e) by (destruct IC as (_ & X1 & X2 & X3 & _); cbn in *; auto).
      assert (LEN : length gs = length ks) by (clear - F; induction F; cbn [length]; congruence).
      assert (NEW : exists b, match prev with Some p => space_between u chars p o | None => Ok true end = Ok b /\
                 group_state e (gs ++ [w']) (if b then S words else words) (Some c)).
      { destruct G as [(-> & -> & ->)|(gs0 & w & E & C & -> & L)].
        - exists true. split; [reflexivity|]. right. exists [], w'. repeat split; [constructor|]. cbn [cw_close w']. lia.
        - unfold space_between. destruct (Nat.ltb_spec o (cw_close w)) as [X|X]; [lia|]. eexists. split; [reflexivity|].
          right. exists gs, w'. split; [reflexivity|]. split; [|split; [reflexivity|cbn [cw_close w']; lia]].
          rewrite E in C |- *. destruct (counted_snoc _ _ w' _ C) as [C1 C2].
          destruct (existsb (at_pos chars (is_space u)) (upto (cw_close w) o)) eqn:EX.
          + apply C1, spaced_iff, EX.
          + apply C2. intros Y. apply spaced_iff in Y. unfold w' in Y. cbn [cw_open] in Y. congruence. }
      destruct NEW as (b & -> & G'). cbn [bind].
      assert (GE : map (fun x => triple (fst x) (snd x)) (combine gs ks) ++ [(o, c, k)] = map (fun x => triple (fst x) (snd x)) (combine (gs ++ [w']) (ks ++ [k]))).
      { rewrite combine_snoc by exact LEN. rewrite map_app. reflexivity. }
      rewrite GE. destruct (IH e (gs ++ [w']) (ks ++ [k]) (if b then S words else words) (Some c) T7 (Forall2_snoc _ _ _ _ _ F GD) G')
        as (l & parts & ms & E1 & E2 & E3).
      exists l, parts, ms. split; [exact E1|]. split; [|exact E3]. rewrite E2, map_app, <- app_assoc. reflexivity.
    + apply classify_none in EC. destruct (partial_marked s e EC) as (ss & m & M1 & M2 & M3).
      destruct (flushed _ _ _ _ _ F G) as (parts & ms & E1 & E2 & E3 & E4 & E5).
      destruct (IH e [] [] 0 None T7 (Forall2_nil _)) as (l & parts' & ms' & H1 & H2 & H3 & H4 & H5 & H6); [left; auto|].
      cbn [combine map] in H1. rewrite H1. cbn [bind].
      exists (flush u chars (map (fun x => triple (fst x) (snd x)) (combine gs ks)) words ++ emit_partial_word u chars s e ++ l), (parts ++ Other s e ss :: parts'), (ms ++ m ++ ms').
      split; [reflexivity|]. split; [rewrite flat_map_app, E2; cbn [flat_map part_words app]; rewrite H2; reflexivity|].
      split; [apply Forall_app; split; [exact E3|]; constructor; assumption|].
      split; [destruct E5 as [-> | ->]; cbn [apart app]; auto|].
      split; [apply parts_marked_app; [exact E4|]; constructor; assumption|].
      rewrite E1, M3, H6, !flat_map_app. reflexivity.
Qed.
(** the signs, with the parts of the text they belong to *)
Lemma caps_marked : caps_indicating u = true -> exists l parts ms, caps_precompute u chars = Ok (sort_pos l) /\
  text_parts u chars parts /\ parts_marked u chars parts ms /\ l = flat_map (signs u) ms.
Proof.
  intros E. unfold caps_precompute. rewrite E.
  destruct (caps_words_spec (find_words u chars) 0 [] [] 0 None find_words_spec (Forall2_nil _)) as (l & parts & ms & H1 & H2 & H3 & H4 & H5 & H6); [left; auto|].
  cbn [combine map] in H1. rewrite H1. cbn [bind]. exists l, parts, ms. split; [reflexivity|]. split; [|auto].
  cbn [map app] in H2. split; [rewrite H2; apply find_words_spec|]. auto.
Qed.
End Caps.
