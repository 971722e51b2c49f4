(** The capital signs delimit the capital letters. *)
From Coq Require Import Permutation Sorted.
From Verif Require Import Base BaseProofs RuleModel TranslationModel TableModel ConstraintModel IndicatorModel
  CapsSpec IndicatorProofs CapsProofs.

Section Caps.
Variable u : caps_ind.
Variable chars : str.
Notation letter := (letter u chars).
Notation capital := (capital u chars).
Notation right := (mark_right u chars).
(** the marks are right, in order and between [a] and [b] *)
Inductive laid : nat -> nat -> list mark -> Prop :=
| L_nil a b : a <= b -> laid a b []
| L_cons a b m ms : a <= fst (from_to m) -> right m -> laid (snd (from_to m)) b ms -> laid a b (m :: ms).
Lemma right_le m : right m -> fst (from_to m) <= snd (from_to m).
Proof. unfold mark_right. destruct (from_to m). intros (H & _). exact H. Qed.
Lemma laid_le a b ms : laid a b ms -> a <= b.
Proof. induction 1 as [|a b m ms L R H IH]; [assumption|]. apply right_le in R. lia. Qed.
Lemma laid_weak a b ms : laid a b ms -> forall a' b', a' <= a -> b <= b' -> laid a' b' ms.
Proof. induction 1 as [a b L|a b m ms L R H IH]; intros a' b' A B; constructor; auto; lia. Qed.
Lemma laid_app a b c l l' : laid a b l -> laid b c l' -> laid a c (l ++ l').
Proof.
  intros H. revert l'. induction H as [a b L|a b m ms L R H IH]; intros l' H'; [eapply laid_weak; eauto|].
  cbn [app]. constructor; auto.
Qed.
Lemma laid_out_of a b ms : laid a b ms -> laid_out a ms /\ Forall right ms /\ b = b.
Proof. induction 1 as [a b L|a b m ms L R H (IH1 & IH2 & _)]; cbn [laid_out]; auto. Qed.
Lemma marked_app l l' q : marked_capital (l ++ l') q <-> marked_capital l q \/ marked_capital l' q.
Proof.
  unfold marked_capital. split.
  - intros (m & I & H). apply in_app_iff in I. destruct I; [left|right]; exists m; auto.
  - intros [(m & I & H)|(m & I & H)]; exists m; split; auto; apply in_app_iff; auto.
Qed.

Definition next_right (c : nat) (next : option nat) : Prop :=
  match next with Some n => c <= n < length chars /\ letter n /\ ~ capital n /\ forall q, c <= q < n -> ~ letter q | None => True end.
Lemma stretch_laid o c next m : stretch_marked u chars o c next m -> o < c -> c <= length chars -> capital o ->
  (forall q, o <= q < c -> letter q -> capital q) -> next_right c next ->
  laid o c m /\ (can_mark u -> forall q, o <= q < c -> letter q -> marked_capital m q).
Proof.
  intros H OC CN CO AL NX. destruct H as [H1 H2|H1 H2 H3|H1 H2 H3|ps H1 H2 H3 H4 H5 H6|H1 H2 H3].
  - split.
    + constructor; [cbn; lia| |constructor; cbn; lia]. unfold mark_right. cbn [from_to]. split; [lia|]. split; [lia|]. split; [exact CO|]. split; [|lia].
      intros q Hq _. replace q with o by lia. exact CO.
    + intros _ q Hq L. exists (LetterSign o). split; [left; reflexivity|]. cbn [from_to fst snd].
      destruct (Nat.eq_dec q o) as [->|NE]; [lia|]. exfalso. apply (H2 q); [lia|exact L].
  - split.
    + constructor; [cbn; lia| |constructor; cbn; lia]. unfold mark_right. cbn [from_to].
      split; [lia|]. split; [exact CN|]. split; [exact CO|]. split; [exact AL|]. destruct next; [exact NX|lia].
    + intros _ q Hq L. exists (WordSign o c next). split; [left; reflexivity|]. exact Hq.
  - split.
    + constructor; [cbn; lia| |constructor; cbn; lia]. unfold mark_right. cbn [from_to].
      split; [lia|]. split; [exact CN|]. split; [exact CO|]. split; [exact AL|lia].
    + intros _ q Hq L. exists (ModeSigns o c). split; [left; reflexivity|]. exact Hq.
  - split.
    + assert (G : forall a, a <= c -> (forall q, In q ps -> a <= q < c /\ capital q) -> laid a c (map LetterSign ps)).
      { clear - H6 CN. induction H6 as [|p ps H IH F]; intros a La B; [constructor; exact La|].
        destruct (B p (or_introl eq_refl)) as [Lp Cp]. cbn [map]. constructor; [cbn; lia| |].
        - unfold mark_right. cbn [from_to]. split; [lia|]. split; [lia|]. split; [exact Cp|]. split; [|lia].
          intros q Hq _. replace q with p by lia. exact Cp.
        - cbn [from_to snd]. apply IH; [lia|]. intros q Hq. rewrite Forall_forall in F. specialize (F q Hq).
          destruct (B q (or_intror Hq)). split; [lia|assumption]. }
      apply G; [lia|]. intros q Hq. apply H5 in Hq. exact Hq.
    + intros _ q Hq L. exists (LetterSign q). split; [apply in_map, H5; auto|]. cbn. lia.
  - split; [constructor; lia|]. intros [X|[X|[X Y]]]; [congruence|congruence|]. destruct H2 as [H2|[_ H2]]; congruence.
Qed.
Lemma stretches_laid e : e <= length chars -> forall from ss, stretches u chars e from ss -> from <= e -> forall ms, stretches_marked u chars ss ms ->
  laid from e ms /\ (can_mark u -> forall q, from <= q < e -> capital q -> marked_capital ms q).
Proof.
  intros LE from ss H.
  induction H as [from N|from o c L1 L2 L3 N C1 C2 AL NL|from o c n l L1 L2 L3 L4 N C1 C2 AL NL LN CN H IH]; intros FE ms M.
  - inversion M; subst. split; [constructor; exact FE|]. intros _ q Hq X. exfalso. exact (N q Hq X).
  - inversion M as [|? ? m ms' M1 M2]; subst. inversion M2; subst. cbn [st_open st_close st_next] in M1. rewrite app_nil_r.
    destruct (stretch_laid _ _ _ _ M1) as [A B]; auto; try lia; [cbn; exact I|].
    split; [eapply laid_weak; eauto|]. intros K q Hq X. assert (Lq : letter q) by apply X.
    destruct (Nat.lt_ge_cases q o) as [Y|Y]; [exfalso; apply (N q); [lia|exact X]|].
    destruct (Nat.lt_ge_cases q c) as [Z|Z]; [apply B; auto|exfalso; apply (NL q); [lia|exact Lq]].
  - inversion M as [|? ? m ms' M1 M2]; subst. cbn [st_open st_close st_next] in M1.
    destruct (stretch_laid _ _ _ _ M1) as [A B]; auto; try lia; [cbn; repeat split; auto; lia|].
    destruct (IH ltac:(lia) _ M2) as [A' B'].
    split; [apply laid_app with n; [eapply laid_weak; eauto|exact A']|]. intros K q Hq X. apply marked_app. assert (Lq : letter q) by apply X.
    destruct (Nat.lt_ge_cases q o) as [Y|Y]; [exfalso; apply (N q); [lia|exact X]|].
    destruct (Nat.lt_ge_cases q c) as [Z|Z]; [left; apply B; auto|].
    destruct (Nat.lt_ge_cases q n) as [W|W]; [exfalso; apply (NL q); [lia|exact Lq]|right; apply B'; auto; lia].
Qed.

(** a run of words in capitals *)
Lemma last_cons {A} (l : list A) : forall x y, last (x :: l) y = last l x.
Proof. induction l as [|z l IH]; intros x y; [reflexivity|]. change (last (x :: z :: l) y) with (last (z :: l) y). rewrite !IH. reflexivity. Qed.
Definition last_word (ws : list cap_word) (w : cap_word) := last ws w.
Lemma group_extent ws : forall w from rest, text_words u chars from (map ends (w :: ws) ++ rest) -> Forall (in_capitals u chars) (w :: ws) ->
  exists to, text_words u chars to rest /\ from <= cw_open w /\ cw_open w < cw_close w /\ cw_open w <= cw_open (last ws w) /\ cw_open (last ws w) < cw_close (last ws w) /\
    cw_close (last ws w) <= to /\ to <= length chars /\ capital (cw_open w) /\ capital (cw_open (last ws w)) /\
    (forall q, from <= q < to -> letter q -> cw_open w <= q < cw_close (last ws w) /\ capital q).
Proof.
  induction ws as [|w' ws IH]; intros w from rest TW F.
  - cbn [map app last] in *. inversion TW as [|? ? ? ? T1 T2 T3 T4 T5 T6 T7]; subst.
    inversion F as [|? ? (AC & I1 & I2 & I3 & I4 & I5 & I6) _]; subst. exists (cw_end w). split; [exact T7|].
    split; [lia|]. split; [lia|]. split; [lia|]. split; [lia|]. split; [lia|]. split; [lia|]. split; [exact I4|]. split; [exact I4|].
    intros q H H0. split; [|split; [exact H0|]].
    + destruct (Nat.lt_ge_cases q (cw_start w)); [exfalso; apply (T4 q); [lia|apply letter_word; assumption]|]. apply I6; auto; lia.
    + destruct (Nat.lt_ge_cases q (cw_start w)); [exfalso; apply (T4 q); [lia|apply letter_word; assumption]|]. apply AC; auto; lia.
  - cbn [map app] in TW. inversion TW as [|? ? ? ? T1 T2 T3 T4 T5 T6 T7]; subst.
    inversion F as [|? ? (AC & I1 & I2 & I3 & I4 & I5 & I6) F']; subst.
    destruct (IH w' (cw_end w) rest T7 F') as (to & X1 & X2 & X3 & X4 & X5 & X6 & X7 & X8 & X9 & X10).
    assert (EL : last (w' :: ws) w = last ws w') by apply last_cons.
    rewrite EL. exists to. split; [exact X1|]. split; [lia|]. split; [exact I2|]. split; [lia|]. split; [exact X5|]. split; [exact X6|]. split; [exact X7|].
    split; [exact I4|]. split; [exact X9|]. intros q Hq Lq.
    destruct (Nat.lt_ge_cases q (cw_end w)) as [Y|Y].
    + destruct (Nat.lt_ge_cases q (cw_start w)); [exfalso; apply (T4 q); [lia|apply letter_word; assumption]|].
      destruct (I6 q ltac:(lia) Lq) as [J1 J2]. split; [lia|]. apply AC; auto; lia.
    + destruct (X10 q ltac:(lia) Lq) as [J1 J2]. split; [lia|exact J2].
Qed.
Lemma words_laid ws : forall from rest, text_words u chars from (map ends ws ++ rest) -> from <= length chars -> Forall (in_capitals u chars) ws ->
  exists to, text_words u chars to rest /\ from <= to <= length chars /\ (ws = [] -> to = from) /\ (forall ms, words_marked u chars ws ms ->
    laid from to ms /\ (can_mark u -> forall q, from <= q < to -> letter q -> marked_capital ms q)).
Proof.
  induction ws as [|w ws IH]; intros from rest TW LN F.
  - exists from. split; [exact TW|]. split; [lia|]. split; [reflexivity|]. intros ms M. inversion M; subst. split; [constructor; lia|]. intros; lia.
  - cbn [map app] in TW. inversion TW as [|? ? ? ? T1 T2 T3 T4 T5 T6 T7]; subst.
    inversion F as [|? ? (AC & I1 & I2 & I3 & I4 & I5 & I6) F']; subst.
    destruct (IH (cw_end w) rest T7 T3 F') as (to & X1 & X2 & _ & X3). exists to. split; [exact X1|]. split; [lia|]. split; [discriminate|].
    intros ms M. inversion M as [|? ? m ms' M1 M2]; subst. destruct (X3 _ M2) as [Y1 Y2].
    destruct (stretch_laid _ _ _ _ M1) as [Z1 Z2]; auto; try lia; [intros q Hq Lq; apply AC; auto; lia|cbn; exact I|].
    split.
    + apply laid_app with (cw_end w); [|exact Y1]. eapply laid_weak; [exact Z1| |]; lia.
    + intros K q Hq Lq. apply marked_app. destruct (Nat.lt_ge_cases q (cw_end w)) as [Y|Y]; [|right; apply Y2; auto; lia].
      left. destruct (Nat.lt_ge_cases q (cw_start w)); [exfalso; apply (T4 q); [lia|apply letter_word; assumption]|].
      apply Z2; auto; apply I6; auto; lia.
Qed.
Lemma first_open_app ws w : match ws ++ [w] with [] => True | a :: l => first_open (ws ++ [w]) = cw_open a /\ last l a = w end.
Proof.
  destruct ws as [|a ws]; cbn [app first_open]; [auto|]. split; [reflexivity|]. rewrite last_last. reflexivity.
Qed.
Lemma part_laid x from rest m : text_words u chars from (part_words x ++ rest) -> from <= length chars -> part_fits u chars x -> part_marked u chars x m ->
  exists to, text_words u chars to rest /\ from <= to <= length chars /\ laid from to m /\
    (can_mark u -> forall q, from <= q < to -> capital q -> marked_capital m q).
Proof.
  intros TW LN PF PM. assert (PASS : forall ws w, text_words u chars from (map ends (ws ++ [w]) ++ rest) -> Forall (in_capitals u chars) (ws ++ [w]) ->
    exists to, text_words u chars to rest /\ from <= first_open (ws ++ [w]) /\ first_open (ws ++ [w]) <= cw_open w /\ cw_open w < cw_close w /\ cw_close w <= to /\ to <= length chars /\
    capital (first_open (ws ++ [w])) /\ capital (cw_open w) /\ (forall q, from <= q < to -> letter q -> first_open (ws ++ [w]) <= q < cw_close w /\ capital q)).
  { intros ws w T F. pose proof (first_open_app ws w) as FO. destruct (ws ++ [w]) as [|a l] eqn:EW; [destruct ws; discriminate|]. destruct FO as [FO1 FO2].
    destruct (group_extent l a from rest T F) as (to & X1 & X2 & X3 & X4 & X5 & X6 & X7 & X8 & X9 & X10). rewrite FO1, FO2 in *.
    exists to. repeat split; auto; try lia; try apply X8; try apply X9; apply X10; auto. }
  destruct PM as [s e ss m SM|ws w n C LN' BP EP|ws w n m C LN' BP EP BF SM|ws w n C LN' BP BG|ws n m C LN' WM].
  - cbn [part_words app] in TW. inversion TW as [|? ? ? ? T1 T2 T3 T4 T5 T6 T7]; subst. destruct PF as [_ ST].
    destruct (stretches_laid e T3 s ss ST ltac:(lia) m SM) as [A B]. exists e. split; [exact T7|]. split; [lia|]. split; [eapply laid_weak; eauto|].
    intros K q Hq X. apply B; auto. destruct (Nat.lt_ge_cases q s) as [Y|Y]; [|lia]. exfalso. apply (T4 q); [lia|]. apply letter_word, X.
  - destruct (PASS ws w TW (proj2 PF)) as (to & X1 & X2 & X3 & X4 & X5 & X6 & X7 & X8 & X9). exists to. split; [exact X1|]. split; [lia|]. split.
    + constructor; [cbn; lia| |constructor; cbn; lia]. unfold mark_right. cbn [from_to]. split; [lia|]. split; [lia|]. split; [exact X7|]. split; [|lia].
      intros q Hq Lq. apply X9; auto; lia.
    + intros _ q Hq X. eexists. split; [left; reflexivity|]. cbn [from_to fst snd]. apply X9; auto. apply X.
  - destruct (PASS ws w TW (proj2 PF)) as (to & X1 & X2 & X3 & X4 & X5 & X6 & X7 & X8 & X9). exists to. split; [exact X1|]. split; [lia|].
    destruct (stretch_laid _ _ _ _ SM) as [Z1 Z2]; auto; try lia; [intros q Hq Lq; apply X9; auto; lia|cbn; exact I|]. split.
    + constructor; [cbn; lia| |cbn [from_to snd]; eapply laid_weak; eauto]. unfold mark_right. cbn [from_to]. split; [lia|]. split; [lia|]. split; [exact X7|]. split; [|exact X8].
      intros q Hq Lq. apply X9; auto; lia.
    + intros K q Hq X. destruct (X9 q Hq (proj1 X)) as [J _]. destruct (Nat.lt_ge_cases q (cw_open w)) as [Y|Y].
      * eexists. split; [left; reflexivity|]. cbn. lia.
      * destruct (Z2 K q) as (m' & I & R); [lia|apply X|]. exists m'. split; [right; exact I|exact R].
  - destruct (PASS ws w TW (proj2 PF)) as (to & X1 & X2 & X3 & X4 & X5 & X6 & X7 & X8 & X9). exists to. split; [exact X1|]. split; [lia|]. split.
    + constructor; [cbn; lia| |constructor; cbn; lia]. unfold mark_right. cbn [from_to]. split; [lia|]. split; [lia|]. split; [exact X7|]. split; [|lia].
      intros q Hq Lq. apply X9; auto; lia.
    + intros _ q Hq X. eexists. split; [left; reflexivity|]. cbn [from_to fst snd]. apply X9; auto. apply X.
  - destruct (words_laid ws from rest TW LN (proj2 PF)) as (to & X1 & X2 & _ & X3). destruct (X3 m WM) as [Y1 Y2]. exists to. split; [exact X1|]. split; [exact X2|].
    split; [exact Y1|]. intros K q Hq X. apply Y2; auto. apply X.
Qed.
Lemma parts_laid parts ms : parts_marked u chars parts ms -> forall from, text_words u chars from (flat_map part_words parts) -> from <= length chars ->
  Forall (part_fits u chars) parts -> laid from (length chars) ms /\ (can_mark u -> forall q, from <= q -> capital q -> marked_capital ms q).
Proof.
  induction 1 as [|x l m ms M _ IH]; intros from TW LN F.
  - cbn [flat_map] in TW. inversion TW as [? X|]; subst. split; [constructor; exact LN|]. intros _ q Hq C. exfalso. apply (X q Hq). apply letter_word, C.
  - cbn [flat_map] in TW. inversion F as [|? ? PF F']; subst. destruct (part_laid _ _ _ _ TW LN PF M) as (to & X1 & X2 & X3 & X4).
    destruct (IH to X1 ltac:(lia) F') as [Y1 Y2]. split; [apply laid_app with to; assumption|]. intros K q Hq C. apply marked_app.
    destruct (Nat.lt_ge_cases q to); [left; apply X4; auto|right; apply Y2; auto].
Qed.
Lemma marks_right parts ms : text_parts u chars parts -> parts_marked u chars parts ms ->
  Forall right ms /\ laid_out 0 ms /\ (can_mark u -> forall q, capital q -> marked_capital ms q).
Proof.
  intros (TW & F & _) M. destruct (parts_laid parts ms M 0 TW ltac:(lia) F) as [A B]. destruct (laid_out_of _ _ _ A) as (A1 & A2 & _).
  split; [exact A2|]. split; [exact A1|]. intros K q C. apply B; auto. lia.
Qed.
(** the signs stand inside the text *)
Lemma signs_inside m p t : right m -> In (p, t) (signs u m) -> p <= length chars /\
  In (Some t) [ui_letter u; ui_begword u; ui_endword u; ui_beg u; ui_end u; ui_begphrase u; ui_endphrase u].
Proof.
  intros R I. assert (PUT : forall q o, In (p, t) (put q o) -> q = p /\ o = Some t).
  { intros q [r|]; cbn; [intros [H|[]]; injection H as -> ->; auto|intros []]. }
  assert (LE : fst (from_to m) <= length chars /\ snd (from_to m) <= length chars).
  { pose proof (right_le _ R). unfold mark_right in R. destruct (from_to m). cbn in *. destruct R as (_ & R & _). lia. }
  destruct m as [o|o c [n|]|o c|o c|o c]; cbn [signs from_to fst snd] in *;
    repeat (match goal with H : In _ (_ ++ _) |- _ => apply in_app_iff in H; destruct H as [H|H] end);
    apply PUT in I; destruct I as [<- I].
  1: split; [lia|rewrite I; cbn; auto].
  all: try (split; [lia|]; rewrite I; cbn; tauto).
  - unfold mark_right in R; cbn in R. split; [lia|]. rewrite I; cbn; tauto.
  - split; [lia|]. destruct (ui_endphrase u) eqn:E; [rewrite <- I|rewrite I]; cbn; tauto.
Qed.
Lemma caps_total : exists l, caps_precompute u chars = Ok l /\ Forall (fun x => fst x <= length chars /\
  In (Some (snd x)) [ui_letter u; ui_begword u; ui_endword u; ui_beg u; ui_end u; ui_begphrase u; ui_endphrase u]) l.
Proof.
  destruct (caps_indicating u) eqn:E.
  - destruct (caps_marked u chars E) as (l & parts & ms & E1 & T & M & ->). eexists. split; [exact E1|].
    destruct (marks_right _ _ T M) as (R & _ & _). apply Forall_forall. intros [p t] H. apply (proj1 (sort_pos_In _ _)) in H.
    apply in_flat_map in H. destruct H as (m & Hm & H). rewrite Forall_forall in R. apply signs_inside with m; auto.
  - unfold caps_precompute. rewrite E. exists []. split; [reflexivity|constructor].
Qed.
End Caps.
