(** The parsers of OperandModel.v accept exactly what OperandSpec.v describes. *)
From Coq Require Import Strings.String.
From Coq Require Import List.
From Verif Require Import Base BaseProofs RuleModel TranslationModel BrailleModel BrailleProofs OperandModel
  OperandProofs OperandProofs2 UnescapeSpec UnescapeProofs OperandSpec.
Local Open Scope list_scope.

(** ** Parts *)
Lemma is_ascii_digit_spec c : is_ascii_digit c = true <-> digit10 c.
Proof. unfold is_ascii_digit, digit10. rewrite andb_true_iff, !N.leb_le. reflexivity. Qed.
Lemma is_alphabetic_spec c : is_ascii_alphabetic c = true <-> latin c.
Proof. unfold is_ascii_alphabetic, latin. rewrite orb_true_iff, !andb_true_iff, !N.leb_le. reflexivity. Qed.
Lemma begins_cons P c r : begins P (c :: r) <-> P c.
Proof. split; [intros (c' & r' & E & H); injection E as -> ->; exact H|intros H; exists c, r; auto]. Qed.
Lemma begins_nil P : ~ begins P [].
Proof. intros (c & r & E & _); discriminate. Qed.
Lemma begins_app P s r : begins P s -> begins P (s ++ r).
Proof. intros (c & x & -> & H). exists c, (x ++ r). auto. Qed.
Lemma begins_head P s r : s <> [] -> (begins P (s ++ r) <-> begins P s).
Proof. destruct s as [|c s]; [congruence|]. intros _. simpl. rewrite !begins_cons. reflexivity. Qed.

Lemma take_while_spec p (P : char -> Prop) : (forall c, p c = true <-> P c) ->
  forall s a b, take_while p s = (a, b) <-> s = a ++ b /\ Forall P a /\ ~ begins P b.
Proof.
  intros HP. induction s as [|c s IH]; intros a b; simpl.
  - split; [intros [= <- <-]; repeat split; [constructor|apply begins_nil]|].
    intros (E & _ & _). symmetry in E. apply app_eq_nil in E as [-> ->]. reflexivity.
  - destruct (p c) eqn:Ec.
    + destruct (take_while p s) as [a' b'] eqn:E. split.
      * intros [= <- <-]. destruct (proj1 (IH a' b') eq_refl) as (-> & F & B).
        repeat split; [constructor; [apply HP, Ec|exact F]|exact B].
      * intros (E1 & F & B). destruct a as [|c' a].
        { simpl in E1. subst b. destruct B. apply begins_cons, HP, Ec. }
        simpl in E1. injection E1 as <- E1. inversion F; subst.
        assert (X : (a', b') = (a, b)) by (apply IH; auto). injection X as -> ->. reflexivity.
    + split.
      * intros [= <- <-]. repeat split; [constructor|]. rewrite begins_cons. intros X. apply HP in X. congruence.
      * intros (E1 & F & B). destruct a as [|c' a]; [simpl in E1; subst; reflexivity|].
        simpl in E1. injection E1 as <- E1. inversion F; subst. apply HP in H1. congruence.
Qed.

Lemma fold_ten t acc : fold_left (fun a c => a * 10 + (c - 48))%N t acc = fold_left (fun v c => 10 * v + (c - 48))%N t acc.
Proof. revert acc. induction t as [|c t IH]; intros acc; simpl; [reflexivity|]. rewrite IH. f_equal. rewrite N.mul_comm. reflexivity. Qed.
Lemma parse_u8_spec t n : Forall digit10 t -> (parse_u8 t = Some n <-> decimal t n /\ (n <= 255)%N).
Proof.
  intros F. unfold parse_u8, decimal. rewrite fold_ten. destruct t as [|c t].
  - split; [discriminate|]. intros ((X & _) & _). destruct (X eq_refl).
  - set (v := fold_left (fun v c => 10 * v + (c - 48))%N (c :: t) 0%N). destruct (N.leb_spec v 255).
    + split; [intros [= <-]; repeat split; [discriminate|exact F|exact H]|]. intros ((_ & _ & ->) & _). reflexivity.
    + split; [discriminate|]. intros ((_ & _ & ->) & X). lia.
Qed.
Lemma ascii_number_spec s n r :
  ascii_number s = Good n r <-> exists t, s = t ++ r /\ number t n r.
Proof.
  unfold ascii_number, number. destruct (take_while is_ascii_digit s) as [d r'] eqn:E.
  pose proof (proj1 (take_while_spec _ _ is_ascii_digit_spec _ _ _) E) as (Es & F & B). split.
  - destruct (parse_u8 d) as [v|] eqn:Ev; [|discriminate]. intros [= <- <-].
    apply (parse_u8_spec d v F) in Ev as [D L]. exists d. auto.
  - intros (t & -> & (D & L & B')).
    assert (X : take_while is_ascii_digit (t ++ r) = (t, r)).
    { apply (take_while_spec _ _ is_ascii_digit_spec). repeat split; [apply D|exact B']. }
    rewrite X in E. injection E as <- <-.
    rewrite (proj2 (parse_u8_spec t n (proj1 (proj2 D)))); auto.
Qed.
Lemma number_begins t n r : number t n r -> begins digit10 t.
Proof. intros ((X & F & _) & _). destruct F as [|c t Hc F]; [destruct (X eq_refl)|]. exists c, t. auto. Qed.
Lemma number_nil t n r : number t n r -> number t n [].
Proof. intros (D & L & _). split; [exact D|]. split; [exact L|]. apply begins_nil. Qed.
Lemma number_rest t n r : number t n [] -> ~ begins digit10 r -> number t n r.
Proof. intros (D & L & _) B. split; [exact D|]. split; [exact L|exact B]. Qed.
Lemma number_nonempty t n r : number t n r -> t <> [].
Proof. intros ((X & _) & _). exact X. Qed.

Lemma mp_unescape_spec len s v r :
  mp_unescape_unicode len s = Good v r <->
  exists h, s = h ++ r /\ length h = len /\ Number16 true h v /\ scalar v.
Proof.
  unfold mp_unescape_unicode. split.
  - destruct (Nat.ltb_spec (length s) len); [discriminate|].
    destruct (from_radix16 (firstn len s)) as [w|] eqn:E; [|discriminate].
    destruct (char_from_u32 w) as [c|] eqn:Ec; [|discriminate]. intros [= <- <-].
    apply char_from_u32_some in Ec as [-> Sc]. apply from_radix16_spec in E.
    exists (firstn len s). repeat split; auto; [symmetry; apply firstn_skipn|apply firstn_length_le; lia].
  - intros (h & -> & L & Nm & Sc). rewrite app_length, L.
    destruct (Nat.ltb_spec (len + length r) len); [lia|].
    rewrite firstn_exact by exact L. rewrite skipn_exact by exact L.
    apply from_radix16_spec in Nm. rewrite Nm.
    rewrite (proj2 (char_from_u32_some v v)); auto.
Qed.

Lemma string_body_sound f : forall s t r, string_body f s = Good t r ->
  exists b, s = b ++ lit """" ++ r /\ quoted_text b t.
Proof.
  induction f as [|f IH]; intros s t r H; simpl in H; [discriminate|].
  destruct s as [|c s]; [discriminate|].
  destruct (N.eqb_spec c 34) as [->|N34].
  { injection H as <- <-. exists []. split; [reflexivity|constructor]. }
  apply pbind_Good in H as (x & r1 & E & H). apply pbind_Good in H as (t' & r2 & E2 & H).
  injection H as <- <-. apply IH in E2 as (b & -> & Q). unfold handle_escape in E.
  destruct (N.eqb_spec c 92) as [->|N92]; simpl in E.
  2: { injection E as <- ->. exists (c :: b). split; [reflexivity|]. apply q_plain; auto. }
  destruct s as [|e s]; [discriminate|].
  destruct (N.eqb_spec e 115) as [->|Ns].
  { injection E as <- ->. exists (lit "\s" ++ b). split; [reflexivity|]. apply q_space, Q. }
  destruct (N.eqb_spec e 34) as [->|Nq].
  { injection E as <- ->. exists (lit "\""" ++ b). split; [reflexivity|]. apply q_quote, Q. }
  destruct (N.eqb_spec e 120) as [->|Nx].
  { apply mp_unescape_spec in E as (h & -> & L & Nm & Sc). exists (lit "\x" ++ h ++ b).
    split; [simpl; rewrite <- !app_assoc; reflexivity|]. apply q_x; auto. }
  destruct (N.eqb_spec e 121) as [->|Ny].
  { apply mp_unescape_spec in E as (h & -> & L & Nm & Sc). exists (lit "\y" ++ h ++ b).
    split; [simpl; rewrite <- !app_assoc; reflexivity|]. apply q_y; auto. }
  injection E as <- E. exists (92%N :: b). split; [exact (f_equal (cons 92%N) E)|].
  destruct b as [|e' b]; [simpl in E; injection E as -> _; congruence|].
  simpl in E. injection E as <- E. apply (q_backslash e b); [|exact Q].
  intros [X|[X|[X|[X|[]]]]]; vm_compute in X; congruence.
Qed.
Lemma string_body_complete b t : quoted_text b t -> forall r f, length b < f ->
  string_body f (b ++ 34%N :: r) = Good t r.
Proof.
  induction 1 as [|c s t Nq Nb Q IH|s t Q IH|s t Q IH|h v s t L Nm Sc Q IH|h v s t L Nm Sc Q IH|e s t Ni Q IH];
    intros r f Hf.
  - destruct f; [simpl in Hf; lia|]. reflexivity.
  - destruct f as [|f]; [simpl in Hf; lia|]. simpl. destruct (N.eqb_spec c 34) as [X|_]; [destruct (Nq X)|].
    unfold handle_escape. destruct (N.eqb_spec c 92) as [X|_]; [destruct (Nb X)|]. cbn [negb pbind].
    simpl in Hf. rewrite IH by lia. reflexivity.
  - destruct f as [|f]; [simpl in Hf; lia|]. simpl in *. rewrite IH by lia. reflexivity.
  - destruct f as [|f]; [simpl in Hf; lia|]. simpl in *. rewrite IH by lia. reflexivity.
  - destruct f as [|f]; [simpl in Hf; lia|].
    assert (E : handle_escape 92%N (120%N :: h ++ s ++ 34%N :: r) = Good v (s ++ 34%N :: r)).
    { unfold handle_escape. cbn [N.eqb Pos.eqb negb]. apply mp_unescape_spec. exists h. auto. }
    change ((lit "\x" ++ h ++ s) ++ 34%N :: r) with (92%N :: 120%N :: (h ++ s) ++ 34%N :: r). rewrite <- app_assoc.
    cbn [string_body]. cbn [N.eqb Pos.eqb]. rewrite E. cbn [pbind].
    rewrite !app_length in Hf. simpl in Hf. rewrite IH by lia. reflexivity.
  - destruct f as [|f]; [simpl in Hf; lia|].
    assert (E : handle_escape 92%N (121%N :: h ++ s ++ 34%N :: r) = Good v (s ++ 34%N :: r)).
    { unfold handle_escape. cbn [N.eqb Pos.eqb negb]. apply mp_unescape_spec. exists h. auto. }
    change ((lit "\y" ++ h ++ s) ++ 34%N :: r) with (92%N :: 121%N :: (h ++ s) ++ 34%N :: r). rewrite <- app_assoc.
    cbn [string_body]. cbn [N.eqb Pos.eqb]. rewrite E. cbn [pbind].
    rewrite !app_length in Hf. simpl in Hf. rewrite IH by lia. reflexivity.
  - destruct f as [|f]; [simpl in Hf; lia|].
    change ((lit "\" ++ e :: s) ++ 34%N :: r) with (92%N :: (e :: s) ++ 34%N :: r).
    cbn [string_body]. cbn [N.eqb Pos.eqb].
    assert (E : handle_escape 92%N ((e :: s) ++ 34%N :: r) = Good 92%N ((e :: s) ++ 34%N :: r)).
    { unfold handle_escape. cbn [N.eqb Pos.eqb negb app].
      assert (A : forall k, In k (lit "s""xy") -> N.eqb e k = false) by (intros k I; apply N.eqb_neq; intros ->; exact (Ni I)).
      change 115%N with (ch "s"). change 34%N with (ch """"). change 120%N with (ch "x"). change 121%N with (ch "y").
      rewrite !A by (simpl; tauto). reflexivity. }
    rewrite E. cbn [pbind]. simpl in Hf. rewrite IH by (simpl; lia). reflexivity.
Qed.
Lemma quoted_spec s t r : quoted s = Good t r <-> exists b, s = lit """" ++ b ++ lit """" ++ r /\ quoted_text b t.
Proof.
  unfold quoted. split.
  - intros H. apply pbind_Good in H as (u & r1 & E & H). apply consume_good in E as ->.
    apply string_body_sound in H as (b & -> & Q). exists b. split; [reflexivity|exact Q].
  - intros (b & -> & Q). cbn [app lit]. 
    change (consume 34%N (lit """" ++ b ++ lit """" ++ r)) with (Good tt (b ++ lit """" ++ r)). cbn [pbind].
    apply (string_body_complete b t Q r). rewrite app_length. lia.
Qed.


(** ** Dots *)
Lemma joins_split sep t : exists parts, parts <> [] /\ t = joins sep parts /\ split_on sep t = parts.
Proof. exists (split_on sep t). split; [apply split_nonempty|]. split; [symmetry; apply split_join|reflexivity]. Qed.
Lemma spells_cell_no t u c : spells_cell t u -> In c t -> (48 <= c)%N.
Proof.
  intros (ds & _ & F & _) I. revert I. induction F as [|x d t ds D _ IH]; [intros []|]. intros [<-|I]; [|auto].
  destruct D as [(H & _)|(H & _)]; lia.
Qed.
Lemma spells_parts_clean parts us sep : (sep < 48)%N -> Forall2 spells_cell parts us -> Forall (fun q => ~ In sep q) parts.
Proof.
  intros L F. induction F as [|t u parts us S _ IH]; constructor; auto. intros I. pose proof (spells_cell_no _ _ _ S I). lia.
Qed.
Lemma cells_to_string_each cs us : cells_to_string cs = Ok us <-> Forall2 (fun c u => to_unicode c = Ok u) cs us.
Proof.
  revert us; induction cs as [|c cs IH]; intros us; cbn [cells_to_string].
  - split; intros H; [injection H as <-; constructor|inversion H; reflexivity].
  - split.
    + destruct (to_unicode c) as [u| |] eqn:U; try discriminate. cbn [bind]. destruct (cells_to_string cs) as [s| |] eqn:E; try discriminate.
      cbn [bind]. intros [= <-]. constructor; [exact U|]. apply IH. reflexivity.
    + intros H. inversion H as [|? u ? s U F]; subst. rewrite U. cbn [bind]. rewrite (proj2 (IH s) F). reflexivity.
Qed.
Lemma cells_spec t us : (exists cs, cells_of_str t = POk cs /\ cells_to_string cs = Ok us) <-> spells_cells t us.
Proof.
  unfold spells_cells, cells_of_str. split.
  - intros (cs & E & T). apply collect_ok in E. apply cells_to_string_each in T. destruct (joins_split 45%N t) as (parts & N & J & S).
    exists parts. split; [exact N|]. split; [exact J|]. rewrite <- S. clear - E T. revert us T.
    induction E as [|p c ps cs H _ IH]; intros us T; inversion T; subst; constructor; auto.
    apply cell_of_str_ok in H. destruct H as (ds & N & F & ->). exists ds. auto.
  - intros (parts & N & -> & F). destruct parts as [|p ps]; [congruence|].
    rewrite split_of_join by (apply (spells_parts_clean _ us); [lia|exact F]).
    assert (G : forall l us, Forall2 spells_cell l us -> exists cs, Forall2 (fun x y => cell_of_str x = POk y) l cs /\ Forall2 (fun c u => to_unicode c = Ok u) cs us).
    { clear. intros l us F. induction F as [|q u l us (ds & N & D & U) _ (cs & IH1 & IH2)]; [exists []; split; constructor|].
      exists (cell_of ds :: cs). split; constructor; auto. apply cell_of_str_ok. eauto. }
    destruct (G _ _ F) as (cs & G1 & G2). exists cs. split; [apply collect_ok, G1|apply cells_to_string_each, G2].
Qed.
Definition dot_char (c : char) : Prop := is "-" c \/ exists d, denotes c d.
Lemma dot_char_spec c : (is_braille_dot c || N.eqb c 45)%bool = true <-> dot_char c.
Proof.
  unfold is_braille_dot, is_ascii_digit, dot_char, denotes. rewrite !orb_true_iff, !andb_true_iff, !N.leb_le, N.eqb_eq.
  split.
  - intros [[H|H]|H]; [right; eexists; left; repeat split; lia|right; eexists; right; repeat split; lia|left; symmetry; exact H].
  - intros [<-|(d & [H|H])]; [right; reflexivity|left; left; lia|left; right; lia].
Qed.
Lemma joins_in sep parts c : In c (joins sep parts) -> c = sep \/ exists p, In p parts /\ In c p.
Proof.
  destruct parts as [|p ps]; [intros []|]. cbn [joins]. intros H. apply in_app_or in H as [H|H].
  - right. exists p. split; [left; reflexivity|exact H].
  - apply in_flat_map in H as (q & Iq & [->|H]); [left; reflexivity|]. right. exists q. split; [right; exact Iq|exact H].
Qed.
Lemma spells_cells_chars t us : spells_cells t us -> Forall dot_char t.
Proof.
  intros (parts & _ & -> & F). apply Forall_forall. intros c I. apply joins_in in I as [->|(p & Ip & Ic)]; [left; reflexivity|].
  right. clear - F Ip Ic. induction F as [|q u parts us (ds & _ & D & _) _ IH]; [destruct Ip|].
  destruct Ip as [->|Ip]; [|auto]. clear - D Ic. induction D as [|x d q ds Hd _ IH]; [destruct Ic|].
  destruct Ic as [->|Ic]; [exists d; exact Hd|auto].
Qed.
Lemma spells_cells_nonempty t us : spells_cells t us -> t <> [].
Proof.
  intros (parts & N & -> & F) E. destruct F as [|p u ps us (ds & Np & _) F]; [congruence|].
  cbn [joins] in E. apply app_eq_nil in E as [-> _]. exact (Np eq_refl).
Qed.
Lemma dots_spec s t r : dots s = Good t r <->
  exists d, s = lit "@" ++ d ++ r /\ spells_cells d t /\ ~ begins dot_char r.
Proof.
  unfold dots. split.
  - intros H. apply pbind_Good in H as (u & r1 & E & H). apply consume_good in E as ->.
    destruct (take_while (fun c => (is_braille_dot c || N.eqb c 45)%bool) r1) as [d r'] eqn:E.
    apply (take_while_spec _ _ dot_char_spec) in E as (-> & _ & B).
    destruct (cells_of_str d) as [cs|] eqn:E1; [|discriminate].
    destruct (cells_to_string cs) as [t'| |] eqn:E2; try discriminate. injection H as <- <-.
    exists d. split; [reflexivity|]. split; [apply cells_spec; eauto|exact B].
  - intros (d & -> & Sp & B). change (consume 64%N (lit "@" ++ d ++ r)) with (Good tt (d ++ r)). cbn [pbind].
    rewrite (proj2 (take_while_spec _ _ dot_char_spec (d ++ r) d r)) by (repeat split; [eapply spells_cells_chars; eauto|exact B]).
    apply cells_spec in Sp as (cs & -> & ->). reflexivity.
Qed.

(** ** Tests *)
Lemma not_begins P (c : char) r : ~ begins P (c :: r) -> ~ P c.
Proof. intros H X. apply H, begins_cons, X. Qed.
Lemma maybe_quantifier_spec s q r : maybe_quantifier s = Good q r <->
  exists t, s = t ++ r /\ quantifier_text t q r.
Proof.
  unfold maybe_quantifier. split.
  - destruct s as [|c s]; [intros [= <- <-]; exists []; split; [reflexivity|apply qt_once, begins_nil]|].
    destruct (N.eqb_spec c 46) as [->|N46].
    { intros [= <- <-]. exists (lit "."). split; [reflexivity|constructor]. }
    destruct (is_ascii_digit c) eqn:Ec.
    + intros H. apply pbind_Good in H as (m & r1 & E & H). apply ascii_number_spec in E as (t & Es & Nm).
      rewrite Es. destruct r1 as [|d r2].
      { injection H as <- <-. exists t. split; [reflexivity|]. apply qt_number; [exact Nm|apply begins_nil]. }
      destruct (N.eqb_spec d 45) as [->|N45].
      * apply pbind_Good in H as (n & r3 & E & H). apply ascii_number_spec in E as (t' & -> & Nm').
        destruct (N.leb_spec n m); [discriminate|]. injection H as <- <-.
        exists (t ++ lit "-" ++ t'). split; [rewrite <- !app_assoc; reflexivity|].
        apply qt_range; [eapply number_nil; exact Nm|exact Nm'|assumption].
      * injection H as <- <-. exists t. split; [reflexivity|]. apply qt_number; [exact Nm|].
        rewrite begins_cons. intros X. apply N45. symmetry. exact X.
    + intros [= <- <-]. exists []. split; [reflexivity|]. apply qt_once. rewrite begins_cons.
      intros [X|X]; [apply N46; symmetry; exact X|]. apply is_ascii_digit_spec in X. congruence.
  - intros (t & -> & Q). destruct Q as [r B|r|t n r Nm B|t n t' m r Nm Nm' Lt].
    + simpl. destruct r as [|c r]; [reflexivity|]. apply not_begins in B.
      destruct (N.eqb_spec c 46) as [->|_]; [destruct B; left; reflexivity|].
      destruct (is_ascii_digit c) eqn:Ec; [|reflexivity]. destruct B. right. apply is_ascii_digit_spec, Ec.
    + reflexivity.
    + assert (Bt := number_begins _ _ _ Nm). destruct Bt as (c & t0 & -> & Hc). cbn [app].
      destruct (N.eqb_spec c 46) as [->|_]; [destruct Hc; lia|]. apply is_ascii_digit_spec in Hc as Hc'. rewrite Hc'.
      assert (E : ascii_number (c :: t0 ++ r) = Good n r) by (apply ascii_number_spec; exists (c :: t0); auto).
      rewrite E. cbn [pbind]. destruct r as [|d r]; [reflexivity|]. apply not_begins in B.
      destruct (N.eqb_spec d 45) as [->|_]; [destruct (B eq_refl)|reflexivity].
    + assert (Bt := number_begins _ _ _ Nm). destruct Bt as (c & t0 & -> & Hc). rewrite <- !app_assoc. cbn [app].
      destruct (N.eqb_spec c 46) as [->|_]; [destruct Hc; lia|]. apply is_ascii_digit_spec in Hc as Hc'. rewrite Hc'.
      assert (E : ascii_number (c :: t0 ++ lit "-" ++ t' ++ r) = Good n (lit "-" ++ t' ++ r)).
      { apply ascii_number_spec. exists (c :: t0). split; [reflexivity|]. apply number_rest; [exact Nm|].
        change (lit "-" ++ t' ++ r) with (45%N :: t' ++ r). rewrite begins_cons. intros []; lia. }
      rewrite E. cbn [pbind]. change (lit "-" ++ t' ++ r) with (45%N :: t' ++ r). cbn [N.eqb Pos.eqb].
      assert (E' : ascii_number (t' ++ r) = Good m r) by (apply ascii_number_spec; exists t'; auto).
      rewrite E'. cbn [pbind]. destruct (N.leb_spec m n); [lia|reflexivity].
Qed.

Lemma test_attribute_spec c a : test_attribute c = Some a <-> test_letter c a.
Proof.
  unfold test_attribute, test_letter. split.
  - intros H. unfold assoc in H.
    repeat match type of H with
    | (if N.eqb ?x ?y then _ else _) = _ => destruct (N.eqb_spec x y) as [->|]; [injection H as <-; simpl; tauto|]
    end. discriminate.
  - intros H. simpl in H. repeat (destruct H as [H|H]; [injection H as <- <-; reflexivity|]). destruct H.
Qed.
Lemma attributes_body_spec s l r : attributes_body s = (l, r) <->
  exists t, s = t ++ r /\ Forall2 test_letter t l /\ ~ begins (fun c => exists a, test_letter c a) r.
Proof.
  revert l r. induction s as [|c s IH]; intros l r; simpl.
  - split.
    + intros [= <- <-]. exists []. repeat split; [constructor|apply begins_nil].
    + intros (t & E & F & _). symmetry in E. apply app_eq_nil in E as [-> ->]. inversion F. reflexivity.
  - destruct (test_attribute c) as [a|] eqn:Ea.
    + destruct (attributes_body s) as [l' r'] eqn:E. split.
      * intros [= <- <-]. destruct (proj1 (IH l' r') eq_refl) as (t & -> & F & B).
        exists (c :: t). repeat split; [|exact B]. constructor; [apply test_attribute_spec, Ea|exact F].
      * intros (t & Es & F & B). destruct t as [|c' t].
        { simpl in Es. subst r. destruct B. apply begins_cons. exists a. apply test_attribute_spec, Ea. }
        simpl in Es. injection Es as <- Es. inversion F as [|? a' ? l0 Ha F']; subst.
        apply test_attribute_spec in Ha. rewrite Ea in Ha. injection Ha as <-.
        assert (X : (l', r') = (l0, r)) by (apply IH; eauto). injection X as -> ->. reflexivity.
    + split.
      * intros [= <- <-]. exists []. repeat split; [constructor|]. rewrite begins_cons. intros (a & X).
        apply test_attribute_spec in X. congruence.
      * intros (t & Es & F & B). destruct t as [|c' t]; [inversion F; simpl in Es; subst; reflexivity|].
        simpl in Es. injection Es as <- Es. inversion F as [|? a' ? l0 Ha F']; subst.
        apply test_attribute_spec in Ha. congruence.
Qed.
Lemma p_attributes_spec s t r : p_attributes s = Good t r <->
  exists a l b q, s = lit "$" ++ a ++ b ++ r /\ a <> [] /\ Forall2 test_letter a l /\ quantifier_text b q r /\
    ~ begins (fun c => exists x, test_letter c x) (b ++ r) /\ t = TAttributes l q.
Proof.
  unfold p_attributes. split.
  - intros H. apply pbind_Good in H as (u & r1 & E & H). apply consume_good in E as ->.
    destruct (attributes_body r1) as [l r2] eqn:E. apply attributes_body_spec in E as (a & -> & F & B).
    assert (NE : l <> []) by (intros ->; discriminate H).
    assert (H' : pbind (maybe_quantifier r2) (fun q r3 => Good (TAttributes l q) r3) = Good t r) by (destruct l; [destruct (NE eq_refl)|exact H]).
    apply pbind_Good in H' as (q & r3 & Eq & [= <- <-]). apply maybe_quantifier_spec in Eq as (b & -> & Q).
    exists a, l, b, q. repeat split; auto. intros ->. inversion F. congruence.
  - intros (a & l & b & q & -> & NE & F & Q & B & ->).
    change (consume 36%N (lit "$" ++ a ++ b ++ r)) with (Good tt (a ++ b ++ r)). cbn [pbind].
    rewrite (proj2 (attributes_body_spec (a ++ b ++ r) l (b ++ r))) by eauto.
    rewrite (proj2 (maybe_quantifier_spec (b ++ r) q r)) by eauto. cbn [pbind].
    destruct l; [inversion F; subst; destruct (NE eq_refl)|reflexivity].
Qed.
Lemma p_class_spec s t r : p_class s = Good t r <->
  (exists a b q, s = lit "%" ++ a ++ b ++ r /\ a <> [] /\ Forall latin a /\ quantifier_text b q r /\
     ~ begins latin (b ++ r) /\ t = TClass a q) \/
  (exists c, s = lit "%" ++ [c] ++ r /\ (ch "1" <= c <= ch "7")%N /\ t = TClass [c] None).
Proof.
  change (ch "1") with 49%N. change (ch "7") with 55%N. unfold p_class. split.
  - intros H. apply pbind_Good in H as (u & r1 & E & H). apply consume_good in E as ->.
    destruct r1 as [|c r1]; [discriminate|].
    destruct (N.leb 49 c && N.leb c 55)%bool eqn:Ec.
    + injection H as <- <-. right. exists c. rewrite andb_true_iff, !N.leb_le in Ec. auto.
    + destruct (take_while is_ascii_alphabetic (c :: r1)) as [name r2] eqn:E.
      apply (take_while_spec _ _ is_alphabetic_spec) in E as (E & F & B). rewrite E. left.
      assert (NE : name <> []) by (intros ->; discriminate H).
      assert (H' : pbind (maybe_quantifier r2) (fun q r3 => Good (TClass name q) r3) = Good t r) by (destruct name; [destruct (NE eq_refl)|exact H]).
      apply pbind_Good in H' as (q & r3 & Eq & [= <- <-]). apply maybe_quantifier_spec in Eq as (b & -> & Q).
      exists name, b, q. repeat split; auto.
  - intros [(a & b & q & -> & NE & F & Q & B & ->)|(c & -> & Hc & ->)].
    + change (consume 37%N (lit "%" ++ a ++ b ++ r)) with (Good tt (a ++ b ++ r)). cbn [pbind].
      assert (E : take_while is_ascii_alphabetic (a ++ b ++ r) = (a, b ++ r)) by (apply (take_while_spec _ _ is_alphabetic_spec); auto).
      destruct a as [|c a]; [destruct (NE eq_refl)|]. cbn [app] in *. 
      destruct (N.leb 49 c && N.leb c 55)%bool eqn:Ec.
      { rewrite andb_true_iff, !N.leb_le in Ec. inversion F; subst. unfold latin in *. lia. }
      rewrite E. rewrite (proj2 (maybe_quantifier_spec (b ++ r) q r)) by eauto. reflexivity.
    + change (consume 37%N (lit "%" ++ [c] ++ r)) with (Good tt (c :: r)). cbn [pbind].
      replace (N.leb 49 c && N.leb c 55)%bool with true; [reflexivity|].
      symmetry. rewrite andb_true_iff, !N.leb_le. exact Hc.
Qed.
Lemma p_lookback_spec s t r : p_lookback s = Good t r <->
  (s = lit "_" ++ r /\ ~ begins digit10 r /\ t = TLookback 1%N) \/
  (exists a n, s = lit "_" ++ a ++ r /\ number a n r /\ t = TLookback n).
Proof.
  unfold p_lookback. split.
  - intros H. apply pbind_Good in H as (u & r1 & E & H). apply consume_good in E as ->.
    destruct r1 as [|c r1]; [injection H as <- <-; left; repeat split; apply begins_nil|].
    destruct (is_ascii_digit c) eqn:Ec.
    + apply pbind_Good in H as (n & r2 & E & [= <- <-]). apply ascii_number_spec in E as (a & Ea & Nm). right. exists a, n. split; [cbn; rewrite <- Ea; reflexivity|]. auto.
    + injection H as <- <-. left. repeat split. rewrite begins_cons. intros X. apply is_ascii_digit_spec in X. congruence.
  - intros [(-> & B & ->)|(a & n & -> & Nm & ->)].
    + change (consume 95%N (lit "_" ++ r)) with (Good tt r). cbn [pbind]. destruct r as [|c r]; [reflexivity|].
      apply not_begins in B. destruct (is_ascii_digit c) eqn:Ec; [|reflexivity]. destruct B. apply is_ascii_digit_spec, Ec.
    + change (consume 95%N (lit "_" ++ a ++ r)) with (Good tt (a ++ r)). cbn [pbind].
      assert (E : ascii_number (a ++ r) = Good n r) by (apply ascii_number_spec; eauto).
      destruct (number_begins _ _ _ Nm) as (c & a' & -> & Hc). apply is_ascii_digit_spec in Hc. cbn [app] in *.
      rewrite Hc, E. reflexivity.
Qed.
Lemma p_operator_spec s o r : p_operator s = Good o r <->
  exists a, s = a ++ r /\ operator_text a o r /\ (o = OpEq \/ o = OpLtEq \/ o = OpGtEq \/ r <> []).
Proof.
  unfold p_operator. split.
  - destruct s as [|c s]; [discriminate|].
    destruct (N.eqb_spec c 61) as [->|N1]; [intros [= <- <-]; exists (lit "="); split; [reflexivity|]; split; [constructor|auto]|].
    destruct (N.eqb_spec c 60) as [->|N2].
    { destruct s as [|d s]; [discriminate|]. destruct (N.eqb_spec d 61) as [->|N3].
      - intros [= <- <-]. exists (lit "<="). split; [reflexivity|]. split; [constructor|auto].
      - intros [= <- <-]. exists (lit "<"). split; [reflexivity|]. split; [|do 3 right; discriminate].
        constructor. rewrite begins_cons. intros X. apply N3. symmetry. exact X. }
    destruct (N.eqb_spec c 62) as [->|N4]; [|discriminate].
    destruct s as [|d s]; [discriminate|]. destruct (N.eqb_spec d 61) as [->|N3].
    + intros [= <- <-]. exists (lit ">="). split; [reflexivity|]. split; [constructor|auto].
    + intros [= <- <-]. exists (lit ">"). split; [reflexivity|]. split; [|do 3 right; discriminate].
      constructor. rewrite begins_cons. intros X. apply N3. symmetry. exact X.
  - intros (a & -> & O & X). destruct O as [r|r B|r B|r|r]; try reflexivity.
    + destruct r as [|d r]; [destruct X as [X|[X|[X|X]]]; congruence|].
      apply not_begins in B. cbn. destruct (N.eqb_spec d 61) as [->|_]; [destruct (B eq_refl)|reflexivity].
    + destruct r as [|d r]; [destruct X as [X|[X|[X|X]]]; congruence|].
      apply not_begins in B. cbn. destruct (N.eqb_spec d 61) as [->|_]; [destruct (B eq_refl)|reflexivity].
Qed.
Lemma operator_no_digit a o r : operator_text a o r -> ~ begins digit10 (a ++ r).
Proof. intros [| | | |]; cbn; rewrite begins_cons; intros []; lia. Qed.
Lemma p_variable_spec s t r : p_variable s = Good t r <->
  exists a v b o c x, s = lit "#" ++ a ++ b ++ c ++ r /\ number a v [] /\ operator_text b o (c ++ r) /\
    number c x r /\ t = TVariable v o x.
Proof.
  unfold p_variable. split.
  - intros H. apply pbind_Good in H as (u & r1 & E & H). apply consume_good in E as ->.
    apply pbind_Good in H as (v & r2 & E & H). apply ascii_number_spec in E as (a & -> & Nv).
    apply pbind_Good in H as (o & r3 & E & H). apply p_operator_spec in E as (b & -> & O & _).
    apply pbind_Good in H as (x & r4 & E & [= <- <-]). apply ascii_number_spec in E as (c & -> & Nx).
    exists a, v, b, o, c, x. repeat split; auto; try apply Nv; try apply Nx. apply begins_nil.
  - intros (a & v & b & o & c & x & -> & Nv & O & Nx & ->).
    change (consume 35%N (lit "#" ++ a ++ b ++ c ++ r)) with (Good tt (a ++ b ++ c ++ r)). cbn [pbind].
    rewrite (proj2 (ascii_number_spec (a ++ b ++ c ++ r) v (b ++ c ++ r))).
    2: { exists a. split; [reflexivity|]. apply number_rest; [exact Nv|]. eapply operator_no_digit, O. }
    cbn [pbind]. rewrite (proj2 (p_operator_spec (b ++ c ++ r) o (c ++ r))).
    2: { exists b. split; [reflexivity|]. split; [exact O|]. do 3 right. apply number_nonempty in Nx. destruct c; [destruct (Nx eq_refl)|discriminate]. }
    cbn [pbind]. rewrite (proj2 (ascii_number_spec (c ++ r) x r)) by eauto. reflexivity.
Qed.

Scheme test_text_ind2 := Induction for test_text Sort Prop
with tests_text_ind2 := Induction for tests_text Sort Prop.
Combined Scheme test_tests_ind from test_text_ind2, tests_text_ind2.

Lemma is_test_false c : is_test c = false -> forall s t r, ~ test_text (c :: s) t r.
Proof.
  intros H s t r T. inversion T; subst; try discriminate H.
Qed.
Lemma test_text_nonempty s t r : test_text s t r -> s <> [].
Proof. destruct 1; discriminate. Qed.
Lemma test_text_first c s t r : test_text (c :: s) t r -> is_test c = true.
Proof. intros T. destruct (is_test c) eqn:E; [reflexivity|]. destruct (is_test_false c E _ _ _ T). Qed.

Lemma p_sound f :
  (forall s t r, p_test f s = Good t r -> exists a, s = a ++ r /\ test_text a t r) /\
  (forall s l r, p_many f s = Good l r -> exists a, s = a ++ r /\ tests_text a l r /\ ~ begins (fun c => is_test c = true) r).
Proof.
  induction f as [|f [IHt IHm]]; [split; intros; discriminate|]. split.
  - intros s t r H. cbn [p_test] in H. destruct s as [|c s]; [discriminate|].
    destruct (N.eqb_spec c 95) as [->|_].
    { apply p_lookback_spec in H as [(E & B & ->)|(a & n & E & Nm & ->)]; rewrite E.
      - exists (lit "_"). split; [reflexivity|]. constructor. exact B.
      - exists (lit "_" ++ a). split; [rewrite <- app_assoc; reflexivity|]. constructor. exact Nm. }
    destruct (N.eqb_spec c 37) as [->|_].
    { apply p_class_spec in H as [(a & b & q & E & NE & F & Q & B & ->)|(c & E & Hc & ->)]; rewrite E.
      - exists (lit "%" ++ a ++ b). split; [rewrite <- !app_assoc; reflexivity|]. apply tt_class; auto.
      - exists (lit "%" ++ [c]). split; [reflexivity|]. apply tt_class_number. exact Hc. }
    destruct (N.eqb_spec c 64) as [->|_].
    { apply pbind_Good in H as (d & r1 & E & [= <- <-]). apply dots_spec in E as (d' & E & Sp & B). rewrite E.
      exists (lit "@" ++ d'). split; [rewrite <- app_assoc; reflexivity|]. apply tt_dots; auto. }
    destruct (N.eqb_spec c 34) as [->|_].
    { apply pbind_Good in H as (t' & r1 & E & [= <- <-]). apply quoted_spec in E as (b & E & Q). rewrite E.
      exists (lit """" ++ b ++ lit """"). split; [rewrite <- !app_assoc; reflexivity|]. apply tt_string; auto. }
    destruct (N.eqb_spec c 36) as [->|_].
    { apply p_attributes_spec in H as (a & l & b & q & E & NE & F & Q & B & ->). rewrite E.
      exists (lit "$" ++ a ++ b). split; [rewrite <- !app_assoc; reflexivity|]. apply tt_attributes; auto. }
    destruct (N.eqb_spec c 91) as [->|_].
    { apply pbind_Good in H as (ts & r1 & E & H). apply pbind_Good in H as (u & r2 & E2 & [= <- <-]).
      apply consume_good in E2 as ->. apply IHm in E as (a & -> & T & _).
      exists (lit "[" ++ a ++ lit "]"). split; [rewrite <- !app_assoc; reflexivity|]. apply tt_replace; auto. }
    destruct (N.eqb_spec c 35) as [->|_].
    { apply p_variable_spec in H as (a & v & b & o & d & x & E & Nv & O & Nx & ->). rewrite E.
      exists (lit "#" ++ a ++ b ++ d). split; [rewrite <- !app_assoc; reflexivity|]. apply tt_variable; auto. }
    destruct (N.eqb_spec c 33) as [->|_].
    { apply pbind_Good in H as (t' & r1 & E & H). apply IHt in E as (a & -> & T).
      destruct t'; cbn [is_negate orb] in H; try discriminate H; injection H as <- <-;
        (eexists (lit "!" ++ a); split; [rewrite <- app_assoc; reflexivity|]; apply tt_not; [exact T|exact Coq.Init.Logic.I]). }
    destruct (N.eqb_spec c 96) as [->|_].
    { injection H as <- <-. exists (lit "`"). split; [reflexivity|constructor]. }
    destruct (N.eqb_spec c 126) as [->|_]; [|discriminate].
    injection H as <- <-. exists (lit "~"). split; [reflexivity|constructor].
  - intros s l r H. cbn [p_many] in H. destruct s as [|c s].
    { injection H as <- <-. exists []. split; [reflexivity|]. split; [constructor|apply begins_nil]. }
    destruct (is_test c) eqn:Ec.
    + apply pbind_Good in H as (t & r1 & E & H). apply pbind_Good in H as (ts & r2 & E2 & [= <- <-]).
      apply IHt in E as (a & E & T). apply IHm in E2 as (b & -> & Ts & B). rewrite E.
      exists (a ++ b). split; [rewrite <- app_assoc; reflexivity|]. split; [|exact B]. apply ts_more; auto.
    + injection H as <- <-. exists []. split; [reflexivity|]. split; [constructor|]. rewrite begins_cons. congruence.
Qed.

Lemma p_complete :
  (forall s t r, test_text s t r -> forall f, 2 * length (s ++ r) + 1 <= f -> p_test f (s ++ r) = Good t r) /\
  (forall s l r, tests_text s l r -> ~ begins (fun c => is_test c = true) r ->
     forall f, 2 * length (s ++ r) + 2 <= f -> p_many f (s ++ r) = Good l r).
Proof.
  apply test_tests_ind.
  - intros r B f Hf. destruct f as [|f]; [lia|]. apply (proj2 (p_lookback_spec (lit "_" ++ r) (TLookback 1) r)). auto.
  - intros s n r Nm f Hf. destruct f as [|f]; [lia|]. rewrite <- app_assoc. 
    apply (proj2 (p_lookback_spec (lit "_" ++ s ++ r) (TLookback n) r)). right. exists s, n. auto.
  - intros s v s' o s'' x r Nv O Nx f Hf. destruct f as [|f]; [lia|]. rewrite <- !app_assoc.
    apply (proj2 (p_variable_spec (lit "#" ++ s ++ s' ++ s'' ++ r) (TVariable v o x) r)). exists s, v, s', o, s'', x. auto.
  - intros s t r Q f Hf. destruct f as [|f]; [lia|]. rewrite <- !app_assoc.
    assert (E := proj2 (quoted_spec (lit """" ++ s ++ lit """" ++ r) t r) (ex_intro _ s (conj eq_refl Q))).
    change (pbind (quoted (lit """" ++ s ++ lit """" ++ r)) (fun t r1 => Good (TString t) r1) = Good (TString t) r).
    rewrite E. reflexivity.
  - intros s cells r Sp B f Hf. destruct f as [|f]; [lia|]. rewrite <- !app_assoc.
    assert (E := proj2 (dots_spec (lit "@" ++ s ++ r) cells r) (ex_intro _ s (conj eq_refl (conj Sp B)))).
    change (pbind (dots (lit "@" ++ s ++ r)) (fun t r1 => Good (TDots t) r1) = Good (TDots cells) r).
    rewrite E. reflexivity.
  - intros s l s' q r NE F Q B f Hf. destruct f as [|f]; [lia|]. rewrite <- !app_assoc.
    apply (proj2 (p_attributes_spec (lit "$" ++ s ++ s' ++ r) (TAttributes l q) r)). exists s, l, s', q. auto 10.
  - intros s s' q r NE F Q B f Hf. destruct f as [|f]; [lia|]. rewrite <- !app_assoc.
    apply (proj2 (p_class_spec (lit "%" ++ s ++ s' ++ r) (TClass s q) r)). left. exists s, s', q. auto 10.
  - intros c r Hc f Hf. destruct f as [|f]; [lia|]. rewrite <- !app_assoc.
    apply (proj2 (p_class_spec (lit "%" ++ [c] ++ r) (TClass [c] None) r)). right. exists c. auto.
  - intros s t r T IH N f Hf. destruct f as [|f]; [lia|]. rewrite <- !app_assoc.
    change (lit "!" ++ s ++ r) with (33%N :: s ++ r). cbn [p_test N.eqb Pos.eqb].
    rewrite IH by (rewrite <- app_assoc in Hf; cbn in Hf; lia). cbn [pbind].
    destruct t; destruct N; reflexivity.
  - intros s l r T IH f Hf. destruct f as [|f]; [lia|]. rewrite <- !app_assoc in *.
    change (lit "[" ++ s ++ lit "]" ++ r) with (91%N :: s ++ lit "]" ++ r) in *. cbn [p_test N.eqb Pos.eqb].
    rewrite IH; [reflexivity| |cbn [length] in Hf; lia].
    change (lit "]" ++ r) with (93%N :: r). rewrite begins_cons. vm_compute. discriminate.
  - intros r f Hf. destruct f as [|f]; [lia|]. reflexivity.
  - intros r f Hf. destruct f as [|f]; [lia|]. reflexivity.
  - intros r B f Hf. destruct f as [|f]; [lia|]. cbn [app p_many]. destruct r as [|c r]; [reflexivity|].
    apply not_begins in B. destruct (is_test c); [congruence|reflexivity].
  - intros s t s' l r T IH Ts IHs B f Hf. destruct f as [|f]; [lia|]. rewrite <- !app_assoc in *.
    assert (NE := test_text_nonempty _ _ _ T). destruct s as [|c s]; [destruct (NE eq_refl)|].
    assert (F := test_text_first _ _ _ _ T). cbn [app p_many]. rewrite F.
    change (c :: s ++ s' ++ r) with ((c :: s) ++ s' ++ r). rewrite IH by lia. cbn [pbind].
    rewrite IHs; [reflexivity|exact B|]. cbn [app length] in Hf. rewrite app_length in Hf. lia.
Qed.

Lemma parse_tests_spec s l : parse_tests s = Good l [] <-> l <> [] /\ tests_text s l [].
Proof.
  unfold parse_tests. split.
  - intros H. apply pbind_Good in H as (ts & r & E & H). apply (proj2 (p_sound _)) in E as (a & -> & T & _).
    destruct ts as [|t ts]; [discriminate|]. destruct r; [|discriminate]. injection H as <-.
    split; [discriminate|]. rewrite app_nil_r. exact T.
  - intros (NE & T). assert (E := proj2 p_complete s l [] T (begins_nil _) (2 * length s + 2)).
    rewrite app_nil_r in E. rewrite E by lia. cbn [pbind]. destruct l; [destruct (NE eq_refl)|reflexivity].
Qed.

(** ** Actions *)
Lemma action_text_nonempty s a r : action_text s a r -> s <> [].
Proof. destruct 1; discriminate. Qed.
Lemma action_text_first c s a r : action_text (c :: s) a r -> is_action c = true.
Proof. intros T. inversion T; subst; reflexivity. Qed.
Lemma a_class_spec s a r : a_class s = Good a r <->
  exists n, s = lit "%" ++ n ++ r /\ n <> [] /\ Forall latin n /\ ~ begins latin r /\ a = ActSwapClass n.
Proof.
  unfold a_class. split.
  - intros H. apply pbind_Good in H as (u & r1 & E & H). apply consume_good in E as ->.
    destruct (take_while is_ascii_alphabetic r1) as [n r2] eqn:E.
    apply (take_while_spec _ _ is_alphabetic_spec) in E as (-> & F & B).
    assert (NE : n <> []) by (intros ->; discriminate H). exists n.
    assert (X : Good (ActSwapClass n) r2 = Good a r) by (destruct n; [destruct (NE eq_refl)|exact H]).
    injection X as <- <-. auto.
  - intros (n & -> & NE & F & B & ->). change (consume 37%N (lit "%" ++ n ++ r)) with (Good tt (n ++ r)). cbn [pbind].
    rewrite (proj2 (take_while_spec _ _ is_alphabetic_spec (n ++ r) n r)) by auto.
    destruct n; [destruct (NE eq_refl)|reflexivity].
Qed.
Lemma p_action_sound s a r : p_action s = Good a r ->
  (exists v, a = ActIncrement v \/ a = ActDecrement v) \/ exists t, s = t ++ r /\ action_text t a r.
Proof.
  unfold p_action. destruct s as [|c s]; [discriminate|].
  destruct (N.eqb_spec c 64) as [->|_].
  { intros H. apply pbind_Good in H as (d & r1 & E & [= <- <-]). apply dots_spec in E as (d' & E & Sp & B). rewrite E.
    right. exists (lit "@" ++ d'). split; [rewrite <- app_assoc; reflexivity|]. apply at_dots; auto. }
  destruct (N.eqb_spec c 34) as [->|_].
  { intros H. apply pbind_Good in H as (t' & r1 & E & [= <- <-]). apply quoted_spec in E as (b & E & Q). rewrite E.
    right. exists (lit """" ++ b ++ lit """"). split; [rewrite <- !app_assoc; reflexivity|]. apply at_string; auto. }
  destruct (N.eqb_spec c 42) as [->|_].
  { intros [= <- <-]. right. exists (lit "*"). split; [reflexivity|constructor]. }
  destruct (N.eqb_spec c 63) as [->|_].
  { intros [= <- <-]. right. exists (lit "?"). split; [reflexivity|constructor]. }
  destruct (N.eqb_spec c 35) as [->|_].
  { unfold a_variable. intros H. apply pbind_Good in H as (u & r1 & E & H). apply consume_good in E. injection E as ->.
    apply pbind_Good in H as (v & r2 & E & H). apply ascii_number_spec in E as (n & -> & Nv).
    destruct r2 as [|d r2]; [discriminate|]. destruct (N.eqb_spec d 61) as [->|_].
    - apply pbind_Good in H as (x & r3 & E & [= <- <-]). apply ascii_number_spec in E as (m & -> & Nx).
      right. exists (lit "#" ++ n ++ lit "=" ++ m). split; [cbn; rewrite <- !app_assoc; reflexivity|].
      apply at_set; [eapply number_nil; exact Nv|exact Nx].
    - destruct (N.eqb d 43); [injection H as <- <-; left; eauto|].
      destruct (N.eqb d 45); [injection H as <- <-; left; eauto|discriminate]. }
  destruct (N.eqb_spec c 37) as [->|_]; [|discriminate].
  intros H. apply a_class_spec in H as (n & E & NE & F & B & ->). rewrite E. right. exists (lit "%" ++ n).
  split; [rewrite <- app_assoc; reflexivity|]. apply at_swap; auto.
Qed.
Lemma p_action_complete s a r : action_text s a r -> p_action (s ++ r) = Good a r.
Proof.
  destruct 1 as [s t r Q|s cells r Sp B|r|r|s v s' x r Nv Nx|s r NE F B]; rewrite <- ?app_assoc.
  - change (pbind (quoted (lit """" ++ s ++ lit """" ++ r)) (fun t r1 => Good (ActString t) r1) = Good (ActString t) r).
    rewrite (proj2 (quoted_spec _ t r) (ex_intro _ s (conj eq_refl Q))). reflexivity.
  - change (pbind (dots (lit "@" ++ s ++ r)) (fun t r1 => Good (ActDots t) r1) = Good (ActDots cells) r).
    rewrite (proj2 (dots_spec _ cells r) (ex_intro _ s (conj eq_refl (conj Sp B)))). reflexivity.
  - reflexivity.
  - reflexivity.
  - change (a_variable (lit "#" ++ s ++ lit "=" ++ s' ++ r) = Good (ActAssignment v x) r). unfold a_variable.
    change (consume 35%N (lit "#" ++ s ++ lit "=" ++ s' ++ r)) with (Good tt (s ++ lit "=" ++ s' ++ r)). cbn [pbind].
    rewrite (proj2 (ascii_number_spec (s ++ lit "=" ++ s' ++ r) v (lit "=" ++ s' ++ r))).
    2: { exists s. split; [reflexivity|]. apply number_rest; [exact Nv|].
         change (lit "=" ++ s' ++ r) with (61%N :: s' ++ r). rewrite begins_cons. intros []; lia. }
    cbn [pbind]. change (lit "=" ++ s' ++ r) with (61%N :: s' ++ r). cbn [N.eqb Pos.eqb].
    rewrite (proj2 (ascii_number_spec (s' ++ r) x r)) by eauto. reflexivity.
  - apply (proj2 (a_class_spec (lit "%" ++ s ++ r) (ActSwapClass s) r)). exists s. auto 10.
Qed.
Lemma a_many_sound f : forall s l r, a_many f s = Good l r -> (forall v, ~ In (ActIncrement v) l /\ ~ In (ActDecrement v) l) ->
  exists a, s = a ++ r /\ actions_text a l r.
Proof.
  induction f as [|f IH]; intros s l r H X; cbn [a_many] in H; [discriminate|].
  destruct s as [|c s]; [injection H as <- <-; exists []; split; [reflexivity|constructor]|].
  destruct (is_action c).
  - apply pbind_Good in H as (t & r1 & E & H). apply pbind_Good in H as (ts & r2 & E2 & [= <- <-]).
    apply p_action_sound in E as [(v & [->| ->])|(a & E & T)].
    + destruct (X v) as [Y _]. destruct Y. left. reflexivity.
    + destruct (X v) as [_ Y]. destruct Y. left. reflexivity.
    + apply IH in E2 as (b & -> & Ts).
      2: { intros v. destruct (X v) as [Y Z]. split; intros I; [apply Y|apply Z]; right; exact I. }
      rewrite E. exists (a ++ b). split; [rewrite <- app_assoc; reflexivity|]. apply as_more; auto.
  - injection H as <- <-. exists []. split; [reflexivity|constructor].
Qed.
Lemma a_many_complete s l r : actions_text s l r -> ~ begins (fun c => is_action c = true) r ->
  forall f, length (s ++ r) < f -> a_many f (s ++ r) = Good l r.
Proof.
  induction 1 as [r|s a s' l r T Ts IH]; intros B f Hf; (destruct f as [|f]; [lia|]).
  - cbn [app a_many]. destruct r as [|c r]; [reflexivity|]. apply not_begins in B.
    destruct (is_action c); [congruence|reflexivity].
  - rewrite <- !app_assoc in *. assert (NE := action_text_nonempty _ _ _ T). destruct s as [|c s]; [destruct (NE eq_refl)|].
    assert (F := action_text_first _ _ _ _ T). cbn [app a_many]. rewrite F.
    change (c :: s ++ s' ++ r) with ((c :: s) ++ s' ++ r). rewrite (p_action_complete _ _ _ T). cbn [pbind].
    rewrite IH; [reflexivity|exact B|]. cbn [app length] in Hf. rewrite app_length in Hf. lia.
Qed.
Lemma parse_actions_spec s l : parse_actions s = Good l [] <-> l <> [] /\ actions_text s l [].
Proof.
  split.
  - intros H. assert (X : forall v, ~ In (ActIncrement v) l /\ ~ In (ActDecrement v) l).
    { intros v. apply parse_actions_no_step in H. split; intros I; assert (Y : existsb is_step l = true)
        by (apply existsb_exists; eexists; split; [exact I|reflexivity]); congruence. }
    unfold parse_actions in H. apply pbind_Good in H as (ts & r & E & H).
    destruct ts as [|t ts]; [discriminate|]. destruct r; [|discriminate]. injection H as <-.
    apply a_many_sound in E as (a & -> & T); [|exact X]. split; [discriminate|]. rewrite app_nil_r. exact T.
  - intros (NE & T). assert (E := a_many_complete s l [] T (begins_nil _) (S (length s))).
    unfold parse_actions. rewrite app_nil_r in E. rewrite E by lia. cbn [pbind]. destruct l; [destruct (NE eq_refl)|reflexivity].
Qed.

(** ** Patterns *)
Lemma char_is_special_spec c : char_is_special c = true <-> In c special.
Proof. unfold char_is_special. rewrite mem_iff. vm_compute. split; intros H; repeat (destruct H as [H|H]; [subst; tauto|]); destruct H. Qed.
Lemma m_characters_spec s p r : m_characters s = Good p r <->
  exists a, s = a ++ r /\ a <> [] /\ Forall (fun c => ~ In c special) a /\ ~ begins (fun c => ~ In c special) r /\ p = PCharacters a.
Proof.
  assert (Sp : forall c, negb (char_is_special c) = true <-> ~ In c special).
  { intros c. rewrite negb_true_iff. rewrite <- char_is_special_spec. destruct (char_is_special c); split; congruence. }
  unfold m_characters. split.
  - destruct (take_while (fun c => negb (char_is_special c)) s) as [a r'] eqn:E.
    apply (take_while_spec _ _ Sp) in E as (-> & F & B). intros H.
    assert (NE : a <> []) by (intros ->; discriminate H). exists a.
    assert (X : Good (PCharacters a) r' = Good p r) by (destruct a; [destruct (NE eq_refl)|exact H]).
    injection X as <- <-. auto 10.
  - intros (a & -> & NE & F & B & ->). rewrite (proj2 (take_while_spec _ _ Sp (a ++ r) a r)) by auto.
    destruct a; [destruct (NE eq_refl)|reflexivity].
Qed.
Lemma set_body_spec s l r : set_body s = Good l r <-> exists a, s = a ++ lit "]" ++ r /\ set_text a l.
Proof.
  split.
  - revert l r. induction s as [s IH] using (well_founded_induction (Wf_nat.well_founded_ltof _ (@length char))).
    intros l r H. destruct s as [|c s]; [discriminate|]. cbn [set_body] in H.
    destruct (N.eqb_spec c 93) as [->|N1].
    { injection H as <- <-. exists []. split; [reflexivity|constructor]. }
    destruct (N.eqb_spec c 92) as [->|N2].
    + destruct s as [|e s]; [discriminate|]. destruct (mem e [93; 40; 41]%N) eqn:Em; [|discriminate].
      apply pbind_Good in H as (l' & r' & E & [= <- <-]). apply IH in E as (a & -> & T); [|unfold Wf_nat.ltof; simpl; lia].
      exists (lit "\" ++ e :: a). split; [reflexivity|]. apply set_escaped; [|exact T].
      apply mem_iff in Em. exact Em.
    + apply pbind_Good in H as (l' & r' & E & [= <- <-]). apply IH in E as (a & -> & T); [|unfold Wf_nat.ltof; simpl; lia].
      exists (c :: a). split; [reflexivity|]. apply set_plain; auto.
  - intros (a & -> & T). induction T as [|c s l N1 N2 T IH|c s l I T IH].
    + reflexivity.
    + cbn [app set_body]. destruct (N.eqb_spec c 93) as [X|_]; [destruct (N1 X)|].
      destruct (N.eqb_spec c 92) as [X|_]; [destruct (N2 X)|]. rewrite IH. reflexivity.
    + change ((lit "\" ++ c :: s) ++ lit "]" ++ r) with (92%N :: c :: s ++ lit "]" ++ r). cbn [set_body N.eqb Pos.eqb].
      rewrite (proj2 (mem_iff c [93; 40; 41]%N) I). rewrite IH. reflexivity.
Qed.
Lemma m_set_spec s p r : m_set s = Good p r <->
  exists a l, s = lit "[" ++ a ++ lit "]" ++ r /\ set_text a l /\ l <> [] /\ p = PSet l.
Proof.
  unfold m_set. split.
  - intros H. apply pbind_Good in H as (u & r1 & E & H). apply consume_good in E as ->.
    apply pbind_Good in H as (l & r2 & E & H). apply set_body_spec in E as (a & -> & T).
    assert (NE : l <> []) by (intros ->; discriminate H). exists a, l.
    assert (X : Good (PSet l) r2 = Good p r) by (destruct l; [destruct (NE eq_refl)|exact H]). injection X as <- <-. auto.
  - intros (a & l & -> & T & NE & ->). change (consume 91%N (lit "[" ++ a ++ lit "]" ++ r)) with (Good tt (a ++ lit "]" ++ r)).
    cbn [pbind]. rewrite (proj2 (set_body_spec (a ++ lit "]" ++ r) l r)) by eauto. cbn [pbind]. destruct l; [destruct (NE eq_refl)|reflexivity].
Qed.
Lemma match_attribute_spec c a : match_attribute c = Some a <-> match_letter c a.
Proof.
  unfold match_attribute, match_letter. change (ch "0") with 48%N. change (ch "7") with 55%N. split.
  - destruct (N.leb 48 c && N.leb c 55)%bool eqn:E.
    + rewrite andb_true_iff, !N.leb_le in E. intros [= <-]. right. auto.
    + intros H. left. unfold assoc in H.
      repeat match type of H with
      | (if N.eqb ?x ?y then _ else _) = _ => destruct (N.eqb_spec x y) as [->|]; [injection H as <-; simpl; tauto|]
      end. discriminate.
  - intros [H|(Hc & ->)].
    + simpl in H. repeat (destruct H as [H|H]; [injection H as <- <-; reflexivity|]). destruct H.
    + replace (N.leb 48 c && N.leb c 55)%bool with true; [reflexivity|]. symmetry. rewrite andb_true_iff, !N.leb_le. exact Hc.
Qed.
Lemma match_letter_bracket a : ~ match_letter 93%N a.
Proof. intros H. apply match_attribute_spec in H. discriminate. Qed.
Lemma mattrs_spec s l r : mattrs_body s = Good l r <-> exists a, s = a ++ lit "]" ++ r /\ Forall2 match_letter a l.
Proof.
  split.
  - revert l r. induction s as [|c s IH]; intros l r H; [discriminate|]. cbn [mattrs_body] in H.
    destruct (N.eqb_spec c 93) as [->|N1].
    { injection H as <- <-. exists []. split; [reflexivity|constructor]. }
    destruct (match_attribute c) as [a|] eqn:Ea; [|discriminate].
    apply pbind_Good in H as (l' & r' & E & [= <- <-]). apply IH in E as (t & -> & F).
    exists (c :: t). split; [reflexivity|]. constructor; [apply match_attribute_spec, Ea|exact F].
  - intros (a & -> & F). induction F as [|c x a l M F IH]; [reflexivity|]. cbn [app mattrs_body].
    destruct (N.eqb_spec c 93) as [->|_]; [destruct (match_letter_bracket _ M)|].
    apply match_attribute_spec in M. rewrite M, IH. reflexivity.
Qed.
(** the pattern made of a list of attributes *)
Definition attributes_pattern (sd : side) (l : list attribute) : pattern :=
  let others := filter (fun a => negb (is_boundary a)) l in
  if existsb is_boundary l then match others with [] => PBoundary sd | _ => PAttributesOrBoundary others sd end
  else PAttributes l.
Lemma one_of_spec sd l p : l <> [] -> (attributes_pattern sd l = p <-> one_of sd l p).
Proof.
  intros NE. unfold attributes_pattern.
  assert (EB : existsb is_boundary l = true <-> In ABoundary l).
  { rewrite existsb_exists. split; [intros (a & I & B); destruct a; try discriminate; exact I|intros I; exists ABoundary; auto]. }
  assert (EF : filter (fun a => negb (is_boundary a)) l = filter (fun a => match a with ABoundary => false | _ => true end) l).
  { apply filter_ext. intros []; reflexivity. }
  assert (EN : filter (fun a => negb (is_boundary a)) l = [] <-> forall a, In a l -> a = ABoundary).
  { split.
    - intros E a I. destruct a; try reflexivity;
        (match goal with |- ?x = _ => assert (X : In x (filter (fun a => negb (is_boundary a)) l)) by (apply filter_In; auto) end; rewrite E in X; destruct X).
    - intros H. destruct (filter _ l) as [|a r] eqn:E; [reflexivity|].
      assert (X : In a (filter (fun a => negb (is_boundary a)) l)) by (rewrite E; left; reflexivity).
      apply filter_In in X as [I X]. rewrite (H a I) in X. discriminate. }
  destruct (existsb is_boundary l) eqn:E.
  - assert (B := proj1 EB eq_refl). split.
    + intros <-. destruct (filter (fun a => negb (is_boundary a)) l) as [|a r] eqn:F.
      * apply one_boundary; [exact NE|]. apply EN. reflexivity.
      * apply one_either; [exact B|discriminate|exact EF].
    + intros H. destruct H as [l H|l Hn H|l others H Ho ->]; [destruct (H B)| |].
      * rewrite (proj2 EN H). reflexivity.
      * rewrite <- EF in *. destruct (filter (fun a => negb (is_boundary a)) l); [destruct (Ho eq_refl)|reflexivity].
  - assert (B : ~ In ABoundary l) by (intros I; apply EB in I; discriminate). split.
    + intros <-. apply one_attributes. exact B.
    + intros H. destruct H as [l H|l Hn H|l others H Ho ->]; [reflexivity| |destruct (B H)].
      destruct l as [|a l]; [destruct (NE eq_refl)|]. destruct B. left. rewrite (H a (or_introl eq_refl)). reflexivity.
Qed.
Lemma m_attributes_spec sd s p r : m_attributes sd s = Good p r <->
  (exists c a, s = lit "%" ++ [c] ++ r /\ match_letter c a /\ one_of sd [a] p) \/
  (exists t l, s = lit "%[" ++ t ++ lit "]" ++ r /\ t <> [] /\ Forall2 match_letter t l /\ one_of sd l p).
Proof.
  assert (U : forall attrs r1, (let others := filter (fun a => negb (is_boundary a)) attrs in
    if existsb is_boundary attrs then match others with [] => Good (PBoundary sd) r1 | _ => Good (PAttributesOrBoundary others sd) r1 end
    else Good (PAttributes attrs) r1) = Good (attributes_pattern sd attrs) r1).
  { intros attrs r1. unfold attributes_pattern. cbv zeta. destruct (existsb is_boundary attrs); [|reflexivity].
    destruct (filter (fun a => negb (is_boundary a)) attrs); reflexivity. }
  unfold m_attributes. split.
  - intros H. apply pbind_Good in H as (u & r1 & E & H). apply consume_good in E as ->.
    apply pbind_Good in H as (attrs & r2 & E & H). rewrite U in H. injection H as H <-.
    destruct r1 as [|c r1]; [discriminate|]. destruct (N.eqb_spec c 91) as [->|_].
    + apply pbind_Good in E as (l & r3 & E & H2). apply mattrs_spec in E as (t & -> & F).
      assert (NE : l <> []) by (intros ->; discriminate H2).
      assert (X : Good l r3 = Good attrs r2) by (destruct l; [destruct (NE eq_refl)|exact H2]). injection X as <- <-.
      right. exists t, l. split; [reflexivity|]. split; [intros ->; inversion F; congruence|]. split; [exact F|].
      apply one_of_spec; assumption.
    + destruct (match_attribute c) as [a|] eqn:Ea; [|discriminate]. injection E as <- <-.
      left. exists c, a. split; [reflexivity|]. split; [apply match_attribute_spec, Ea|]. apply one_of_spec; [discriminate|exact H].
  - intros [(c & a & -> & M & O)|(t & l & -> & NE & F & O)].
    + change (consume 37%N (lit "%" ++ [c] ++ r)) with (Good tt (c :: r)). cbn [pbind].
      apply match_attribute_spec in M. destruct (N.eqb_spec c 91) as [->|_]; [discriminate|]. rewrite M. cbn [pbind].
      rewrite U. apply one_of_spec in O; [|discriminate]. rewrite O. reflexivity.
    + change (consume 37%N (lit "%[" ++ t ++ lit "]" ++ r)) with (Good tt (91%N :: t ++ lit "]" ++ r)). cbn [pbind N.eqb Pos.eqb].
      rewrite (proj2 (mattrs_spec (t ++ lit "]" ++ r) l r)) by eauto. cbn [pbind].
      assert (NL : l <> []) by (intros ->; inversion F; subst; destruct (NE eq_refl)).
      apply one_of_spec in O; [|exact NL].
      destruct l as [|a l]; [destruct (NL eq_refl)|]. cbn [pbind]. rewrite U, O. reflexivity.
Qed.

Scheme inner_text_ind2 := Induction for inner_text Sort Prop
with pattern_text_ind2 := Induction for pattern_text Sort Prop
with sequence_text_ind2 := Induction for sequence_text Sort Prop
with alternatives_text_ind2 := Induction for alternatives_text Sort Prop.
Combined Scheme patterns_ind from inner_text_ind2, pattern_text_ind2, sequence_text_ind2, alternatives_text_ind2.

(** where a sequence ends *)
Definition stops (r : str) : Prop := ~ begins (fun c => ~ In c (lit "|)")) r.
Lemma stops_bar s : stops (lit "|" ++ s).
Proof. unfold stops. change (lit "|" ++ s) with (124%N :: s). rewrite begins_cons. intros H. apply H. vm_compute. auto. Qed.
Lemma stops_paren s : stops (lit ")" ++ s).
Proof. unfold stops. change (lit ")" ++ s) with (41%N :: s). rewrite begins_cons. intros H. apply H. vm_compute. auto. Qed.
Lemma stops_cons c s : stops (c :: s) -> c = 124%N \/ c = 41%N.
Proof.
  intros H. destruct (N.eq_dec c 124) as [->|A]; [auto|]. destruct (N.eq_dec c 41) as [->|B]; [auto|].
  destruct H. apply begins_cons. intros [X|[X|[]]]; vm_compute in X; congruence.
Qed.

Lemma app_nonempty_l (a b : str) : a <> [] -> a ++ b <> [].
Proof. destruct a; [congruence|discriminate]. Qed.
Lemma texts_nonempty sd :
  (forall s p r, inner_text sd s p r -> s <> []) /\ (forall s p r, pattern_text sd s p r -> s <> []) /\
  (forall s l r, sequence_text sd s l r -> s <> [] /\ l <> []) /\
  (forall s l r, alternatives_text sd s l r -> s <> [] /\ l <> []).
Proof.
  apply patterns_ind; intros; try discriminate; auto using app_nonempty_l.
  - split; [assumption|discriminate].
  - split; [auto using app_nonempty_l|discriminate].
  - split; [apply app_nonempty_l; tauto|discriminate].
Qed.
Lemma m_sound f sd :
  (forall s p r, m_inner f sd s = Good p r -> exists a, s = a ++ r /\ inner_text sd a p r) /\
  (forall s p r, m_pattern f sd s = Good p r -> exists a, s = a ++ r /\ pattern_text sd a p r) /\
  (forall s l r, m_sequence f sd s = Good l r -> stops r /\
     (l = [] /\ r = s \/ exists a, s = a ++ r /\ sequence_text sd a l r)) /\
  (forall s l r, m_either f sd s = Good l r -> stops r /\
     (l = [] /\ r = s \/ exists a, s = a ++ r /\ alternatives_text sd a l r)) /\
  (forall left s l r, m_alternatives f sd left s = Good l r -> stops s -> forall a, alternatives_text sd a left s ->
     stops r /\ exists b, a ++ s = b ++ r /\ alternatives_text sd b l r).
Proof.
  induction f as [|f (IHi & IHp & IHs & IHe & IHa)]; [repeat split; intros; discriminate|].
  split; [|split; [|split; [|split]]].
  - intros s p r H. cbn [m_inner] in H. destruct s as [|c s]; [discriminate|].
    destruct (N.eqb_spec c 46) as [->|_].
    { injection H as <- <-. exists (lit "."). split; [reflexivity|constructor]. }
    destruct (N.eqb_spec c 37) as [->|_].
    { apply m_attributes_spec in H as [(c & a & E & M & O)|(t & l & E & NE & F & O)]; rewrite E.
      - exists (lit "%" ++ [c]). split; [reflexivity|]. eapply in_attribute; eauto.
      - exists (lit "%[" ++ t ++ lit "]"). split; [rewrite <- !app_assoc; reflexivity|]. eapply in_attributes; eauto. }
    destruct (N.eqb_spec c 94) as [->|_].
    { injection H as <- <-. exists (lit "^"). split; [reflexivity|constructor]. }
    destruct (N.eqb_spec c 36) as [->|_].
    { injection H as <- <-. exists (lit "$"). split; [reflexivity|constructor]. }
    destruct (N.eqb_spec c 33) as [->|_].
    { apply pbind_Good in H as (q & r1 & E & H). apply IHp in E as (a & -> & T).
      exists (lit "!" ++ a). destruct q; cbn [is_pnegate] in H; try discriminate H; injection H as <- <-;
        (split; [rewrite <- app_assoc; reflexivity|]; apply in_not; [exact T|exact Coq.Init.Logic.I]). }
    destruct (N.eqb_spec c 91) as [->|_].
    { apply m_set_spec in H as (a & l & E & T & NE & ->). rewrite E. exists (lit "[" ++ a ++ lit "]").
      split; [rewrite <- !app_assoc; reflexivity|]. apply in_set; assumption. }
    destruct (N.eqb_spec c 40) as [->|_].
    { apply pbind_Good in H as (ps & r1 & E & H). apply pbind_Good in H as (u & r2 & E2 & H).
      apply consume_good in E2 as ->. assert (NE : ps <> []) by (intros ->; discriminate H).
      assert (X : Good (PGroup ps) r2 = Good p r) by (destruct ps; [destruct (NE eq_refl)|exact H]). injection X as <- <-.
      apply IHe in E as (_ & [(-> & _)|(a & -> & T)]); [destruct (NE eq_refl)|].
      exists (lit "(" ++ a ++ lit ")"). split; [rewrite <- !app_assoc; reflexivity|]. apply in_group. exact T. }
    apply m_characters_spec in H as (a & E & NE & F & B & ->). rewrite E. exists a. split; [reflexivity|].
    apply in_characters; assumption.
  - intros s p r H. cbn [m_pattern] in H. apply pbind_Good in H as (q & r1 & E & H). apply IHi in E as (a & -> & T).
    unfold m_quantifier in H. destruct r1 as [|c r1].
    { injection H as <- <-. exists a. split; [reflexivity|]. apply pt_once; [exact T|apply begins_nil]. }
    destruct (N.eqb_spec c 63) as [->|N1].
    { injection H as <- <-. exists (a ++ lit "?"). split; [rewrite <- app_assoc; reflexivity|]. apply pt_optional, T. }
    destruct (N.eqb_spec c 42) as [->|N2].
    { injection H as <- <-. exists (a ++ lit "*"). split; [rewrite <- app_assoc; reflexivity|]. apply pt_many, T. }
    destruct (N.eqb_spec c 43) as [->|N3].
    { injection H as <- <-. exists (a ++ lit "+"). split; [rewrite <- app_assoc; reflexivity|]. apply pt_more, T. }
    injection H as <- <-. exists a. split; [reflexivity|]. apply pt_once; [exact T|]. rewrite begins_cons.
    intros [X|[X|[X|[]]]]; vm_compute in X; congruence.
  - intros s l r H. cbn [m_sequence] in H. destruct s as [|c s].
    { injection H as <- <-. split; [apply begins_nil|]. left. auto. }
    destruct (N.eqb c 124 || N.eqb c 41)%bool eqn:Ec.
    + injection H as <- <-. split; [|left; auto]. unfold stops. rewrite begins_cons. intros X. apply X.
      rewrite orb_true_iff, !N.eqb_eq in Ec. destruct Ec as [->| ->]; vm_compute; auto.
    + apply pbind_Good in H as (p & r1 & E & H). apply pbind_Good in H as (ps & r2 & E2 & [= <- <-]).
      apply IHp in E as (a & E & T). apply IHs in E2 as (St & [(-> & ->)|(b & -> & Ts)]); (split; [exact St|]); right; rewrite E.
      * exists a. split; [reflexivity|]. apply sq_one, T.
      * exists (a ++ b). split; [rewrite <- app_assoc; reflexivity|]. apply sq_more; assumption.
  - intros s l r H. cbn [m_either] in H.
    destruct (match s with c :: _ => N.eqb c 124 | [] => false end) eqn:Eb; [discriminate|].
    apply pbind_Good in H as (l0 & r0 & E & H). apply IHs in E as (St & [(-> & ->)|(a & -> & T)]).
    + destruct f as [|f']; [discriminate|]. cbn [m_alternatives] in H. destruct s as [|c s]; [injection H as <- <-; auto|].
      rewrite Eb in H. injection H as <- <-. auto.
    + destruct (IHa _ _ _ _ H St a (al_one _ _ _ _ T St)) as (St' & b & E & Tb). split; [exact St'|]. right. eauto.
  - intros left s l r H St a Ta. cbn [m_alternatives] in H. destruct s as [|c s]; [injection H as <- <-; eauto|].
    destruct (N.eqb_spec c 124) as [->|_]; [|injection H as <- <-; eauto].
    apply pbind_Good in H as (right & r1 & E & H). apply IHs in E as (St1 & [(-> & _)|(b & -> & T)]); [discriminate|].
    assert (NE : right <> []) by (apply (proj1 (proj2 (proj2 (texts_nonempty sd)))) in T; tauto).
    assert (X : m_alternatives f sd [PEither left right] r1 = Good l r) by (destruct right; [destruct (NE eq_refl)|exact H]).
    destruct (IHa _ _ _ _ X St1 (a ++ lit "|" ++ b)) as (St2 & b' & E & Tb).
    { apply al_more; [exact Ta|exact T|exact St1]. }
    split; [exact St2|]. exists b'. split; [|exact Tb]. rewrite <- E. rewrite <- !app_assoc. reflexivity.
Qed.

Lemma inner_not_stop sd s p r : inner_text sd s p r -> forall c s', s = c :: s' -> (N.eqb c 124 || N.eqb c 41)%bool = false.
Proof.
  intros H c s' ->. inversion H; subst; try reflexivity.
  match goal with F : Forall _ (c :: s') |- _ => inversion F as [|? ? X _]; subst end.
  rewrite orb_false_iff, !N.eqb_neq. split; intros ->; apply X; vm_compute; tauto.
Qed.
Lemma pattern_not_stop sd s p r : pattern_text sd s p r -> forall c s', s = c :: s' -> (N.eqb c 124 || N.eqb c 41)%bool = false.
Proof.
  intros H c s' E. destruct H as [s p r H _|s p r H|s p r H|s p r H].
  - eapply inner_not_stop; eauto.
  - destruct s as [|c0 s]; [destruct (proj1 (texts_nonempty sd) _ _ _ H eq_refl)|]. injection E as <- _. eapply inner_not_stop; eauto.
  - destruct s as [|c0 s]; [destruct (proj1 (texts_nonempty sd) _ _ _ H eq_refl)|]. injection E as <- _. eapply inner_not_stop; eauto.
  - destruct s as [|c0 s]; [destruct (proj1 (texts_nonempty sd) _ _ _ H eq_refl)|]. injection E as <- _. eapply inner_not_stop; eauto.
Qed.
Lemma alternatives_start sd s l r : alternatives_text sd s l r -> forall c s', s = c :: s' -> N.eqb c 124 = false.
Proof.
  induction 1 as [s l r T B|s l s' l' r A IH T B]; intros c s0 E.
  - destruct T as [s p r T|s p s1 l r T _].
    + assert (X := pattern_not_stop _ _ _ _ T _ _ E). rewrite orb_false_iff in X. tauto.
    + destruct s as [|c1 s]; [destruct (proj1 (proj2 (texts_nonempty sd)) _ _ _ T eq_refl)|]. injection E as <- _.
      assert (X := pattern_not_stop _ _ _ _ T _ _ eq_refl). rewrite orb_false_iff in X. tauto.
  - destruct s as [|c1 s]; [destruct (proj2 (proj2 (proj2 (texts_nonempty sd))) _ _ _ A) as [X _]; destruct (X eq_refl)|].
    injection E as <- _. eapply IH. reflexivity.
Qed.

(** Completeness; [m_either] and [m_alternatives] are followed through a whole list of
    alternatives by induction on the text read so far. *)
Lemma m_complete sd :
  (forall s p r, inner_text sd s p r -> forall f, 4 * length (s ++ r) + 1 <= f -> m_inner f sd (s ++ r) = Good p r) /\
  (forall s p r, pattern_text sd s p r -> forall f, 4 * length (s ++ r) + 2 <= f -> m_pattern f sd (s ++ r) = Good p r) /\
  (forall s l r, sequence_text sd s l r -> stops r -> forall f, 4 * length (s ++ r) + 3 <= f -> m_sequence f sd (s ++ r) = Good l r) /\
  (forall s l r, alternatives_text sd s l r -> stops r /\
     forall f, 4 * length (s ++ r) + 4 <= f -> exists f', 4 * length r + 3 <= f' /\
       m_either f sd (s ++ r) = m_alternatives f' sd l r).
Proof.
  apply patterns_ind.
  - intros r f Hf. destruct f as [|f]; [lia|]. reflexivity.
  - intros r f Hf. destruct f as [|f]; [lia|]. reflexivity.
  - intros r f Hf. destruct f as [|f]; [lia|]. reflexivity.
  - intros c a p r M O f Hf. destruct f as [|f]; [lia|]. rewrite <- app_assoc.
    apply (proj2 (m_attributes_spec sd (lit "%" ++ [c] ++ r) p r)). left. exists c, a. auto.
  - intros s l p r NE F O f Hf. destruct f as [|f]; [lia|]. rewrite <- !app_assoc.
    apply (proj2 (m_attributes_spec sd (lit "%[" ++ s ++ lit "]" ++ r) p r)). right. exists s, l. auto.
  - intros s l r NE T f Hf. destruct f as [|f]; [lia|]. rewrite <- !app_assoc.
    apply (proj2 (m_set_spec (lit "[" ++ s ++ lit "]" ++ r) (PSet l) r)). exists s, l. auto.
  - intros s l r A (_ & IH) f Hf. destruct f as [|f]; [lia|]. rewrite <- !app_assoc in *.
    change (lit "(" ++ s ++ lit ")" ++ r) with (40%N :: s ++ lit ")" ++ r) in *. cbn [m_inner N.eqb Pos.eqb].
    cbn [length] in Hf. destruct (IH f) as (f' & Hf' & E); [lia|]. rewrite E. destruct f' as [|f']; [lia|].
    change (m_alternatives (S f') sd l (lit ")" ++ r)) with (Good l (lit ")" ++ r)). cbn [pbind].
    change (consume 41%N (lit ")" ++ r)) with (Good tt r). cbn [pbind].
    apply (proj2 (proj2 (proj2 (texts_nonempty sd)))) in A as [_ A]. destruct l; [destruct (A eq_refl)|reflexivity].
  - intros s p r T IH N f Hf. destruct f as [|f]; [lia|]. rewrite <- !app_assoc in *.
    change (lit "!" ++ s ++ r) with (33%N :: s ++ r) in *. cbn [m_inner N.eqb Pos.eqb]. cbn [length] in Hf.
    rewrite IH by lia. cbn [pbind]. destruct p; destruct N; reflexivity.
  - intros s r NE F B f Hf. destruct f as [|f]; [lia|].
    assert (E : m_characters (s ++ r) = Good (PCharacters s) r) by (apply m_characters_spec; exists s; auto 10).
    destruct s as [|c s]; [destruct (NE eq_refl)|]. inversion F as [|? ? X _]; subst. cbn [app] in *. cbn [m_inner].
    assert (A : forall k, In k special -> N.eqb c k = false) by (intros k I; apply N.eqb_neq; intros ->; exact (X I)).
    rewrite !A by (vm_compute; tauto). exact E.
  - intros s p r T IH B f Hf. destruct f as [|f]; [lia|]. cbn [m_pattern]. rewrite IH by lia. cbn [pbind].
    unfold m_quantifier. destruct r as [|c r]; [reflexivity|]. apply not_begins in B.
    assert (A : forall k, In k (lit "?*+") -> N.eqb c k = false) by (intros k I; apply N.eqb_neq; intros ->; exact (B I)).
    rewrite !A by (vm_compute; tauto). reflexivity.
  - intros s p r T IH f Hf. destruct f as [|f]; [lia|]. rewrite <- !app_assoc in *. cbn [m_pattern]. rewrite IH by lia. reflexivity.
  - intros s p r T IH f Hf. destruct f as [|f]; [lia|]. rewrite <- !app_assoc in *. cbn [m_pattern]. rewrite IH by lia. reflexivity.
  - intros s p r T IH f Hf. destruct f as [|f]; [lia|]. rewrite <- !app_assoc in *. cbn [m_pattern]. rewrite IH by lia. reflexivity.
  - intros s p r T IH St f Hf. destruct f as [|f]; [lia|]. assert (NE := proj1 (proj2 (texts_nonempty sd)) _ _ _ T).
    destruct s as [|c s]; [destruct (NE eq_refl)|]. cbn [app m_sequence]. rewrite (pattern_not_stop _ _ _ _ T _ _ eq_refl).
    change (c :: s ++ r) with ((c :: s) ++ r). rewrite IH by lia. cbn [pbind].
    destruct f as [|f]; [cbn in Hf; lia|]. cbn [m_sequence]. destruct r as [|d r]; [reflexivity|].
    destruct (stops_cons _ _ St) as [->| ->]; reflexivity.
  - intros s p s' l r T IH Ts IHs St f Hf. destruct f as [|f]; [lia|]. assert (NE := proj1 (proj2 (texts_nonempty sd)) _ _ _ T).
    rewrite <- !app_assoc in *.
    destruct s as [|c s]; [destruct (NE eq_refl)|]. cbn [app m_sequence]. rewrite (pattern_not_stop _ _ _ _ T _ _ eq_refl).
    change (c :: s ++ s' ++ r) with ((c :: s) ++ s' ++ r). rewrite IH by lia. cbn [pbind].
    rewrite IHs; [reflexivity|exact St|]. cbn [app length] in Hf. rewrite app_length in Hf. lia.
  - intros s l r T IH St. split; [exact St|]. intros f Hf. destruct f as [|f]; [lia|].
    exists f. assert (NE := proj1 (proj1 (proj2 (proj2 (texts_nonempty sd))) _ _ _ T)).
    split; [rewrite app_length in Hf; destruct s; [destruct (NE eq_refl)|cbn in Hf; lia]|].
    cbn [m_either]. assert (A : alternatives_text sd s l r) by (apply al_one; assumption).
    destruct s as [|c s]; [destruct (NE eq_refl)|]. cbn [app]. rewrite (alternatives_start _ _ _ _ A _ _ eq_refl).
    change (c :: s ++ r) with ((c :: s) ++ r). rewrite IH; [reflexivity|exact St|lia].
  - intros s l s' l' r A (St0 & IHA) T IH St. split; [exact St|]. intros f Hf. rewrite <- !app_assoc in *.
    destruct (IHA f Hf) as (f' & Hf' & E). rewrite E. change (lit "|" ++ s' ++ r) with (124%N :: s' ++ r) in *.
    destruct f' as [|f']; [lia|]. cbn [length] in Hf'. exists f'. split; [rewrite app_length in Hf'; lia|].
    cbn [m_alternatives N.eqb Pos.eqb]. rewrite IH; [|exact St|lia]. cbn [pbind].
    apply (proj1 (proj2 (proj2 (texts_nonempty sd)))) in T as [_ NE]. destruct l'; [destruct (NE eq_refl)|reflexivity].
Qed.

Lemma parse_match_spec sd s l : (exists r, parse_match_pattern sd s = Good l r) <-> operand_text sd s l.
Proof.
  split.
  - intros (r & H). destruct s as [|c s]; [injection H as <- <-; constructor|]. cbn [parse_match_pattern] in H.
    destruct (N.eqb_spec c 45) as [->|N1]; [injection H as <- <-; apply (ot_hyphen sd s)|].
    apply pbind_Good in H as (ps & r1 & E & H). destruct r1; [|discriminate]. injection H as <- <-.
    apply (m_sound _ sd) in E as (_ & [(_ & E)|(a & E & T)]); [discriminate|]. rewrite app_nil_r in E. subst a.
    apply ot_pattern; [exact T|]. rewrite begins_cons. intros X. apply N1. symmetry. exact X.
  - intros H. destruct H as [|s|s l T B]; [exists []; reflexivity|exists s; reflexivity|]. exists [].
    assert (NE := proj1 (proj2 (proj2 (proj2 (texts_nonempty sd))) _ _ _ T)).
    destruct (proj2 (proj2 (proj2 (m_complete sd))) _ _ _ T) as (_ & C). rewrite app_nil_r in C.
    destruct (C (4 * length s + 8) ltac:(lia)) as (f' & Hf' & E). destruct s as [|c s]; [destruct (NE eq_refl)|].
    unfold parse_match_pattern. apply not_begins in B. destruct (N.eqb_spec c 45) as [->|_]; [destruct (B eq_refl)|].
    rewrite E. destruct f' as [|f']; [cbn in Hf'; lia|]. reflexivity.
Qed.
Lemma match_operand_spec sd s l : (exists r, match_operand sd s = Good l r) <-> exists t, Escaped true true s t /\ operand_text sd t l.
Proof.
  unfold match_operand. split.
  - intros (r & H). apply pbind_Good in H as (t & r1 & E & H). assert (X := unescape_rest _ _ _ _ E). subst r1.
    apply unescape_spec in E. exists t. split; [exact E|]. apply parse_match_spec. eauto.
  - intros (t & E & O). apply (unescape_spec EscMatchPattern) in E. rewrite E. cbn [pbind]. apply parse_match_spec, O.
Qed.
