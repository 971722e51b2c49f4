(** Proofs about [unescape]. *)
From Verif Require Import Base BaseProofs RuleModel BrailleModel OperandModel OperandProofs UnescapeSpec.

Lemma hex_val_digit c d : hex_val c = Some d <-> Digit16 c d.
Proof.
  unfold hex_val. split.
  - destruct (N.leb_spec 48 c), (N.leb_spec c 57); cbn [andb].
    { intros [= <-]. replace c with (48 + (c - 48))%N at 1 by lia. apply D_dec. lia. }
    all: destruct (N.leb_spec 97 c), (N.leb_spec c 102); cbn [andb];
      try (intros [= <-]; replace c with (87 + (c - 87))%N at 1 by lia; apply D_lower; lia).
    all: destruct (N.leb_spec 65 c), (N.leb_spec c 70); cbn [andb]; try discriminate;
      try (intros [= <-]; replace c with (55 + (c - 55))%N at 1 by lia; apply D_upper; lia).
  - intros [x H|x H|x H].
    + destruct (N.leb_spec 48 (48 + x)), (N.leb_spec (48 + x) 57); try lia. cbn [andb]. f_equal. lia.
    + destruct (N.leb_spec 48 (87 + x)), (N.leb_spec (87 + x) 57); try lia; cbn [andb].
      destruct (N.leb_spec 97 (87 + x)), (N.leb_spec (87 + x) 102); try lia; cbn [andb]. f_equal. lia.
    + destruct (N.leb_spec 48 (55 + x)), (N.leb_spec (55 + x) 57); try lia; cbn [andb].
      destruct (N.leb_spec 97 (55 + x)), (N.leb_spec (55 + x) 102); try lia; cbn [andb].
      destruct (N.leb_spec 65 (55 + x)), (N.leb_spec (55 + x) 70); try lia; cbn [andb]. f_equal. lia.
Qed.
Lemma hex_digits_app acc a b : hex_digits acc (a ++ b) =
  match hex_digits acc a with Some v => hex_digits v b | None => None end.
Proof.
  revert acc. induction a as [|c a IH]; intros acc; [reflexivity|]. simpl.
  destruct (hex_val c); [apply IH|reflexivity].
Qed.
Lemma hex_digits_spec h v : h <> [] -> (hex_digits 0 h = Some v <-> Digits16 h v).
Proof.
  intros NE. split.
  - revert v. induction h as [|c h IH] using rev_ind; [congruence|]. intros v.
    rewrite hex_digits_app. destruct (hex_digits 0 h) as [w|] eqn:E; [|discriminate]. simpl.
    destruct (hex_val c) as [d|] eqn:D; [|discriminate]. intros [= <-].
    apply hex_val_digit in D. destruct h as [|x h].
    + injection E as <-. simpl. apply Ds_one. exact D.
    + apply Ds_snoc; [apply IH; [discriminate|reflexivity]|exact D].
  - clear NE. induction 1 as [c d D|h v c d H IH D].
    + simpl. apply hex_val_digit in D. rewrite D. reflexivity.
    + rewrite hex_digits_app, IH. simpl. apply hex_val_digit in D. rewrite D. reflexivity.
Qed.
Lemma digits_nonempty h v : Digits16 h v -> h <> [].
Proof. intros [?|h' ? ? ?]; [discriminate|]. destruct h'; discriminate. Qed.
Lemma digit_not_plus c d : Digit16 c d -> c <> 43%N.
Proof. intros [x H|x H|x H]; lia. Qed.
Lemma digits_not_plus h v : Digits16 h v -> hd_error h <> Some 43%N.
Proof.
  induction 1 as [c d D|h v c d H IH D].
  - simpl. intros [= E]. apply (digit_not_plus _ _ D E).
  - destruct h as [|x h]; [destruct (digits_nonempty _ _ H eq_refl)|]. exact IH.
Qed.
Lemma from_radix16_spec h v : from_radix16 h = Some v <-> Number16 true h v.
Proof.
  unfold from_radix16. split.
  - destruct h as [|c r]; [discriminate|]. destruct (N.eqb_spec c 43) as [->|NE].
    + destruct r as [|x r]; [discriminate|]. intros H. apply N_plus; [reflexivity|].
      apply hex_digits_spec; [discriminate|exact H].
    + intros H. apply N_digits. apply hex_digits_spec; [discriminate|exact H].
  - intros [h' v' H|h' v' _ H].
    + pose proof (digits_not_plus _ _ H) as P. pose proof (digits_nonempty _ _ H) as NE.
      destruct h' as [|c r]; [congruence|]. destruct (N.eqb_spec c 43) as [->|_]; [destruct (P eq_refl)|].
      apply hex_digits_spec; [discriminate|exact H].
    + pose proof (digits_nonempty _ _ H) as NE. cbn. destruct h' as [|c r]; [congruence|].
      apply hex_digits_spec; [discriminate|exact H].
Qed.
Lemma number_weaken h v : Number16 false h v -> Number16 true h v.
Proof. intros [h' v' H|h' v' E H]; [apply N_digits, H|discriminate]. Qed.
Lemma number_no_plus h v : ~ In 43%N h -> Number16 true h v -> Number16 false h v.
Proof. intros NI H; inversion H; subst; [apply N_digits; assumption|destruct NI; left; reflexivity]. Qed.

Lemma hex_val_lt c d : hex_val c = Some d -> (d < 16)%N.
Proof. intros H. apply hex_val_digit in H. destruct H; lia. Qed.
Lemma hex_digits_lt h : forall acc v, hex_digits acc h = Some v -> (v < (acc + 1) * 16 ^ N.of_nat (length h))%N.
Proof.
  induction h as [|c h IH]; intros acc v; simpl length.
  - intros [= <-]. simpl. lia.
  - cbn [hex_digits]. destruct (hex_val c) as [d|] eqn:D; [|discriminate]. intros H. apply IH in H.
    apply hex_val_lt in D. replace (16 ^ N.of_nat (S (length h)))%N with (16 * 16 ^ N.of_nat (length h))%N by (rewrite Nat2N.inj_succ, N.pow_succ_r'; reflexivity). nia.
Qed.
Lemma from_radix16_lt h v : from_radix16 h = Some v -> (v < 16 ^ N.of_nat (length h))%N.
Proof.
  unfold from_radix16. destruct h as [|c r]; [discriminate|]. destruct (N.eqb c 43).
  - destruct r as [|x r]; [discriminate|]. intros H. apply hex_digits_lt in H.
    remember (x :: r) as q.
    replace (16 ^ N.of_nat (length (c :: q)))%N with (16 * 16 ^ N.of_nat (length q))%N
      by (simpl length; rewrite Nat2N.inj_succ, N.pow_succ_r'; reflexivity).
    assert (0 < 16 ^ N.of_nat (length q))%N by (apply N.neq_0_lt_0, N.pow_nonzero; lia). nia.
  - intros H. apply hex_digits_lt in H. lia.
Qed.

Lemma is_scalar_spec v : is_scalar v = true <-> scalar v.
Proof.
  unfold is_scalar, scalar. rewrite orb_true_iff, andb_true_iff, !N.ltb_lt, N.leb_le. tauto.
Qed.
Lemma char_from_u32_some v c : char_from_u32 v = Some c <-> c = v /\ scalar v.
Proof.
  unfold char_from_u32. rewrite <- is_scalar_spec. destruct (is_scalar v).
  - split; [intros [= <-]; auto|intros [-> _]; reflexivity].
  - split; [discriminate|intros [_ H]; discriminate].
Qed.
Lemma decode_pair_spec hi lo c :
  decode_pair hi lo = Some c <-> high_surrogate hi /\ low_surrogate lo /\ c = pair_value hi lo.
Proof.
  unfold decode_pair, high_surrogate, low_surrogate, pair_value.
  destruct (N.leb_spec 0xD800 hi), (N.ltb_spec hi 0xDC00), (N.leb_spec 0xDC00 lo), (N.ltb_spec lo 0xE000);
    cbn [andb]; split; try discriminate; try (intros [= <-]; repeat split; lia);
    intros (A & B & E); try lia; subst; reflexivity.
Qed.

Definition keeps (k : escaping) : bool := match k with EscMatchPattern => true | EscDefault => false end.

(** One hexadecimal escape, declaratively. *)
Inductive HexEscape (len : nat) : str -> char -> str -> Prop :=
| H_scalar : forall h v s, length h = len -> Number16 true h v -> scalar v -> HexEscape len (h ++ s) v s
| H_pair : forall h l hi lo s, len = 4 -> length h = 4 -> Number16 true h hi -> high_surrogate hi ->
    length l = 4 -> Number16 true l lo -> low_surrogate lo ->
    HexEscape len (h ++ [92; 120]%N ++ l ++ s) (pair_value hi lo) s
| H_lone : forall h v s, length h = len -> Number16 true h v -> surrogate v ->
    ~ (len = 4 /\ high_surrogate v /\ low_follows true s) -> HexEscape len (h ++ s) 0xFFFD%N s.

Lemma firstn_exact {A} (h s : list A) n : length h = n -> firstn n (h ++ s) = h.
Proof. intros <-. rewrite firstn_app, Nat.sub_diag, firstn_all. simpl. apply app_nil_r. Qed.
Lemma skipn_exact {A} (h s : list A) n : length h = n -> skipn n (h ++ s) = s.
Proof. intros <-. rewrite skipn_app, Nat.sub_diag, skipn_all. reflexivity. Qed.

Lemma unescape_unicode_sound len s c r :
  len = 4 \/ len = 5 -> unescape_unicode len s = Good c r -> HexEscape len s c r.
Proof.
  intros Hl. unfold unescape_unicode. destruct (Nat.ltb_spec (length s) len) as [|L]; [discriminate|].
  destruct (from_radix16 (firstn len s)) as [v|] eqn:F; [|discriminate].
  assert (Lh : length (firstn len s) = len) by (rewrite firstn_length; lia).
  pose proof F as B. apply from_radix16_lt in B. rewrite Lh in B.
  apply from_radix16_spec in F.
  destruct (char_from_u32 v) as [x|] eqn:C.
  - apply char_from_u32_some in C. destruct C as [-> Sc]. intros [= <- <-].
    rewrite <- (firstn_skipn len s) at 1. apply H_scalar; assumption.
  - assert (NS : ~ scalar v).
    { intros Sc. assert (char_from_u32 v = Some v) by (apply char_from_u32_some; auto). congruence. }
    destruct (N.ltb_spec 0xFFFF v) as [|V]; [discriminate|].
    assert (Sv : surrogate v) by (unfold scalar, surrogate in *; lia).
    set (rest := skipn len s) in *.
    assert (Es : s = firstn len s ++ rest) by (symmetry; apply firstn_skipn).
    set (pair := if Nat.eqb len 4 then _ else None).
    assert (P : match pair with
                | Some (c', r') => len = 4 /\ exists l lo, rest = [92; 120]%N ++ l ++ r' /\ length l = 4 /\
                       Number16 true l lo /\ low_surrogate lo /\ high_surrogate v /\ c' = pair_value v lo
                | None => ~ (len = 4 /\ high_surrogate v /\ low_follows true rest) end).
    { unfold pair. destruct (Nat.eqb_spec len 4) as [E4|N4]; [|intros [? _]; congruence].
      assert (Q : low_follows true rest ->
        exists look, rest = 92%N :: 120%N :: look /\ 
          exists lo, from_radix16 (firstn 4 look) = Some lo /\ low_surrogate lo).
      { intros (l & lo & s' & -> & Ll & Nl & Lo). exists (l ++ s'). split; [reflexivity|].
        exists lo. rewrite (firstn_exact l s' 4 Ll). split; [apply from_radix16_spec, Nl|exact Lo]. }
      destruct rest as [|b [|x look]].
      - intros (_ & _ & Q'). destruct (Q Q') as (? & ? & _). discriminate.
      - intros (_ & _ & Q'). destruct (Q Q') as (? & ? & _). discriminate.
      - destruct (N.eqb_spec b 92) as [->|Nb]; cbn [andb].
        2:{ intros (_ & _ & Q'). destruct (Q Q') as (? & [= ? ?] & _). congruence. }
        destruct (N.eqb_spec x 120) as [->|Nx].
        2:{ intros (_ & _ & Q'). destruct (Q Q') as (? & [= ? ?] & _). congruence. }
        destruct (from_radix16 (firstn 4 look)) as [low|] eqn:Fl.
        2:{ intros (_ & _ & Q'). destruct (Q Q') as (? & [= <-] & lo & Flo & _). congruence. }
        destruct (decode_pair v low) as [c'|] eqn:D; cbn [option_map].
        + apply decode_pair_spec in D. destruct D as (Hv & Hlo & ->). split; [exact E4|].
          assert (L4 : length (firstn 4 look) = 4).
          { pose proof (from_radix16_lt _ _ Fl) as Bl. rewrite firstn_length in *.
            destruct (Nat.min_spec 4 (length look)) as [[_ ->]|[Lt E]]; [reflexivity|].
            rewrite E in Bl.
            assert (length look = 4 \/ length look <= 3) as [->|L3] by lia; [reflexivity|].
            exfalso. assert (16 ^ N.of_nat (length look) <= 16 ^ 3)%N.
            { apply N.pow_le_mono_r; lia. }
            unfold low_surrogate in Hlo. change (16 ^ 3)%N with 4096%N in H. lia. }
          exists (firstn 4 look), low. split; [|repeat split; auto; try apply from_radix16_spec; auto; apply Hv || apply Hlo].
          cbn [app]. do 2 f_equal. symmetry. apply firstn_skipn.
        + intros (_ & Hv & Q'). destruct (Q Q') as (? & [= <-] & lo & Flo & Hlo).
          assert (decode_pair v low = Some (pair_value v low)) as X.
          { apply decode_pair_spec. repeat split; try apply Hv; congruence || (assert (lo = low) by congruence; subst; apply Hlo). }
          congruence. }
    destruct pair as [[c' r']|].
    + intros [= <- <-]. destruct P as (-> & l & lo & Er & Ll & Nl & Lo & Hv & ->).
      rewrite Es, Er. apply H_pair; auto.
    + intros [= <- <-]. rewrite Es at 1. apply H_lone with (v := v); auto.
Qed.

Lemma scalar_surrogate v : scalar v -> ~ surrogate v.
Proof. unfold scalar, surrogate. lia. Qed.
Lemma from_u32_surrogate v : surrogate v -> char_from_u32 v = None.
Proof.
  intros Sv. destruct (char_from_u32 v) as [c|] eqn:E; [|reflexivity].
  apply char_from_u32_some in E. destruct E as [_ Sc]. destruct (scalar_surrogate _ Sc Sv).
Qed.
Lemma app_inj_len {A} (a b c d : list A) : length a = length c -> a ++ b = c ++ d -> a = c /\ b = d.
Proof.
  revert c; induction a as [|x a IH]; intros [|y c] L E; simpl in *; try discriminate; auto.
  injection E as -> E. destruct (IH c) as [-> ->]; auto.
Qed.
Lemma from_radix16_det h v w : Number16 true h v -> Number16 true h w -> v = w.
Proof. rewrite <- !from_radix16_spec. congruence. Qed.

Lemma unescape_unicode_complete len s c r : HexEscape len s c r -> unescape_unicode len s = Good c r.
Proof.
  intros H. unfold unescape_unicode. destruct H as [h v s Lh Nh Sc|h l hi lo s -> Lh Nh Hh Ll Nl Hl|h v s Lh Nh Sv NP].
  - destruct (Nat.ltb_spec (length (h ++ s)) len) as [L|_]; [rewrite app_length in L; unfold char in *; lia|].
    rewrite (firstn_exact _ _ _ Lh), (skipn_exact _ _ _ Lh).
    assert (F : from_radix16 h = Some v) by (apply from_radix16_spec; exact Nh). rewrite F.
    assert (C : char_from_u32 v = Some v) by (apply char_from_u32_some; auto). rewrite C. reflexivity.
  - destruct (Nat.ltb_spec (length (h ++ [92; 120]%N ++ l ++ s)) 4) as [L|_]; [rewrite app_length in L; unfold char in *; lia|].
    rewrite (firstn_exact _ _ _ Lh), (skipn_exact _ _ _ Lh).
    assert (F : from_radix16 h = Some hi) by (apply from_radix16_spec; exact Nh). rewrite F.
    rewrite from_u32_surrogate by (unfold high_surrogate, surrogate in *; lia).
    destruct (N.ltb_spec 0xFFFF hi) as [|_]; [unfold high_surrogate in *; lia|].
    cbn [app Nat.eqb N.eqb Pos.eqb andb].
    rewrite (firstn_exact _ _ _ Ll), (skipn_exact _ _ _ Ll).
    assert (F2 : from_radix16 l = Some lo) by (apply from_radix16_spec; exact Nl). rewrite F2.
    assert (D : decode_pair hi lo = Some (pair_value hi lo)) by (apply decode_pair_spec; auto).
    rewrite D. reflexivity.
  - destruct (Nat.ltb_spec (length (h ++ s)) len) as [L|_]; [rewrite app_length in L; unfold char in *; lia|].
    rewrite (firstn_exact _ _ _ Lh), (skipn_exact _ _ _ Lh).
    assert (F : from_radix16 h = Some v) by (apply from_radix16_spec; exact Nh). rewrite F.
    rewrite from_u32_surrogate by assumption.
    destruct (N.ltb_spec 0xFFFF v) as [|_]; [unfold surrogate in *; lia|].
    destruct (Nat.eqb_spec len 4) as [E4|N4]; [|reflexivity].
    destruct s as [|b [|x look]]; try reflexivity.
    destruct (N.eqb_spec b 92) as [->|Nb]; [|reflexivity].
    destruct (N.eqb_spec x 120) as [->|Nx]; [|reflexivity]. cbn [andb].
    destruct (from_radix16 (firstn 4 look)) as [low|] eqn:Fl; [|reflexivity].
    destruct (decode_pair v low) as [c'|] eqn:D; [|reflexivity].
    exfalso. apply NP. apply decode_pair_spec in D. destruct D as (Hv & Hlo & _).
    split; [exact E4|]. split; [exact Hv|].
    exists (firstn 4 look), low, (skipn 4 look). split; [cbn [app]; do 2 f_equal; symmetry; apply firstn_skipn|].
    split; [|split; [apply from_radix16_spec, Fl|exact Hlo]].
    pose proof (from_radix16_lt _ _ Fl) as Bl. rewrite firstn_length in *.
    destruct (Nat.min_spec 4 (length look)) as [[_ ->]|[Lt E]]; [reflexivity|]. rewrite E in *.
    assert (length look = 4 \/ length look <= 3) as [->|L3] by lia; [reflexivity|].
    exfalso. assert (16 ^ N.of_nat (length look) <= 16 ^ 3)%N by (apply N.pow_le_mono_r; lia).
    unfold low_surrogate in Hlo. change (16 ^ 3)%N with 4096%N in H. lia.
Qed.

Lemma hex_escape_shorter len s c r : 0 < len -> HexEscape len s c r -> length r < length s.
Proof.
  intros L [h v s' Lh _ _|h l hi lo s' -> Lh _ _ Ll _ _|h v s' Lh _ _ _];
    rewrite !app_length; cbn [length]; unfold char in *; lia.
Qed.
Lemma unescape_unicode_fuel len s : unescape_unicode len s <> NoFuel.
Proof.
  unfold unescape_unicode. destruct (Nat.ltb (length s) len); [discriminate|].
  destruct (from_radix16 (firstn len s)) as [v|]; [|discriminate].
  destruct (char_from_u32 v); [discriminate|]. destruct (N.ltb 65535 v); [discriminate|].
  match goal with |- match ?x with _ => _ end <> _ => destruct x as [[? ?]|] end; discriminate.
Qed.

(** A simple escape is a named escape. *)
Lemma simple_escape_named e x : simple_escape e = Some x <-> In (e, x) named_escapes.
Proof.
  unfold simple_escape. split.
  - intros H. unfold named_escapes. unfold assoc in H.
    repeat match type of H with
    | (if N.eqb e ?k then _ else _) = _ => destruct (N.eqb_spec e k) as [->|?];
        [injection H as <-; simpl; tauto|] end. discriminate.
  - unfold named_escapes. simpl. intros H.
    repeat (destruct H as [[= <- <-]|H]; [reflexivity|]). destruct H.
Qed.
Lemma mem_iff c l : mem c l = true <-> In c l.
Proof. apply mem_In. Qed.

Lemma unescape_go_fuel k : forall f s, length s < f -> unescape_go f k s <> NoFuel.
Proof.
  induction f as [|f IH]; intros s L; [lia|]. cbn [unescape_go].
  destruct s as [|c r]; [discriminate|]. cbn [length] in L.
  assert (K : forall s' (g : str -> str -> pr str), length s' < f -> (forall t r', g t r' <> NoFuel) ->
    pbind (unescape_go f k s') g <> NoFuel).
  { intros s' g L' G. specialize (IH s' L'). destruct (unescape_go f k s'); cbn [pbind]; auto; discriminate. }
  destruct (negb (N.eqb c 92)); [apply K; [unfold char in *; lia|discriminate]|].
  destruct r as [|e r1]; [discriminate|]. cbn [length] in L.
  destruct (simple_escape e); [apply K; [unfold char in *; lia|discriminate]|].
  match goal with |- (if ?b then _ else _) <> _ => destruct b end;
    [apply K; [unfold char in *; lia|discriminate]|].
  assert (U : forall len, len = 4 \/ len = 5 ->
    pbind (unescape_unicode len r1) (fun x r2 => pbind (unescape_go f k r2) (fun t r' => Good (x :: t) r')) <> NoFuel).
  { intros len Hl. destruct (unescape_unicode len r1) as [x r2| |] eqn:E; cbn [pbind]; [|discriminate|].
    - apply K; [|discriminate]. apply unescape_unicode_sound in E; auto.
      apply hex_escape_shorter in E; [unfold char in *; lia|]. lia.
    - destruct (unescape_unicode_fuel _ _ E). }
  destruct (N.eqb e 120); [apply U; auto|]. destruct (N.eqb e 121); [apply U; auto|discriminate].
Qed.
Lemma unescape_total k s : unescape k s <> NoFuel.
Proof. apply unescape_go_fuel. lia. Qed.

Lemma unescape_go_sound k : forall f s t r, unescape_go f k s = Good t r ->
  r = [] /\ Escaped (keeps k) true s t.
Proof.
  induction f as [|f IH]; intros s t r; [discriminate|]. cbn [unescape_go].
  destruct s as [|c s]; [intros [= <- <-]; split; [reflexivity|constructor]|].
  destruct (N.eqb_spec c 92) as [->|Nc]; cbn [negb].
  2:{ destruct (unescape_go f k s) as [t' r'| |] eqn:E; try discriminate. intros [= <- <-].
      apply IH in E. destruct E as [-> E]. split; [reflexivity|]. constructor; auto. }
  destruct s as [|e s]; [discriminate|].
  destruct (simple_escape e) as [x|] eqn:Es.
  { destruct (unescape_go f k s) as [t' r'| |] eqn:E; try discriminate. intros [= <- <-].
    apply IH in E. destruct E as [-> E]. split; [reflexivity|]. apply E_named; auto.
    apply simple_escape_named; auto. }
  destruct (match k with EscDefault => false | EscMatchPattern => mem e [40; 41; 93]%N end) eqn:K.
  { destruct (unescape_go f k s) as [t' r'| |] eqn:E; try discriminate. intros [= <- <-].
    apply IH in E. destruct E as [-> E]. split; [reflexivity|]. destruct k; [discriminate|].
    apply E_keep; auto. apply mem_iff, K. }
  destruct (N.eqb_spec e 120) as [->|N1].
  { destruct (unescape_unicode 4 s) as [x s2| |] eqn:U; try discriminate. cbn [pbind].
    destruct (unescape_go f k s2) as [t' r'| |] eqn:E; try discriminate. intros [= <- <-].
    apply IH in E. destruct E as [-> E]. split; [reflexivity|].
    apply unescape_unicode_sound in U; auto.
    destruct U as [h v s' Lh Nh Sc|h l hi lo s' _ Lh Nh Hh Ll Nl Hl|h v s' Lh Nh Sv NP].
    - apply (E_x _ _ h v s' t'); auto.
    - apply (E_pair _ _ h l hi lo s' t'); auto.
    - apply (E_lone_x _ _ h v s' t'); auto; try (intros [A B]; apply NP; auto). }
  destruct (N.eqb_spec e 121) as [->|N2]; [|discriminate].
  destruct (unescape_unicode 5 s) as [x s2| |] eqn:U; try discriminate. cbn [pbind].
  destruct (unescape_go f k s2) as [t' r'| |] eqn:E; try discriminate. intros [= <- <-].
  apply IH in E. destruct E as [-> E]. split; [reflexivity|].
  apply unescape_unicode_sound in U; auto.
  destruct U as [h v s' Lh Nh Sc|h l hi lo s' X Lh Nh Hh Ll Nl Hl|h v s' Lh Nh Sv NP].
  - apply (E_y _ _ h v s' t'); auto.
  - discriminate.
  - apply (E_lone_y _ _ h v s' t'); auto.
Qed.

Lemma unescape_go_complete k s t : Escaped (keeps k) true s t ->
  forall f, length s < f -> unescape_go f k s = Good t [].
Proof.
  assert (K : keeps k = true -> k = EscMatchPattern) by (destruct k; [discriminate|auto]).
  induction 1 as [|c s t NE H IH|e x s t IN H IH|e s t KT IN H IH|h v s t Lh Nh Sc H IH|h v s t Lh Nh Sc H IH
                 |h l hi lo s t Lh Nh Hh Ll Nl Hl H IH|h v s t Lh Nh Sv NP H IH|h v s t Lh Nh Sv H IH];
    intros f L; (destruct f as [|f]; [lia|]).
  - reflexivity.
  - cbn [unescape_go]. destruct (N.eqb_spec c 92); [congruence|]. cbn [negb].
    rewrite IH by (simpl in L; lia). reflexivity.
  - cbn [unescape_go N.eqb Pos.eqb negb]. apply simple_escape_named in IN. rewrite IN.
    rewrite IH by (simpl in L; lia). reflexivity.
  - cbn [unescape_go N.eqb Pos.eqb negb]. rewrite (K KT) in *.
    assert (M : mem e [40; 41; 93]%N = true) by (apply mem_iff; exact IN).
    assert (S : simple_escape e = None) by (simpl in IN; destruct IN as [<-|[<-|[<-|[]]]]; reflexivity).
    rewrite S, M. rewrite IH by (simpl in L; lia). reflexivity.
  - cbn [unescape_go N.eqb Pos.eqb negb app].
    change (simple_escape 120%N) with (@None char). cbv iota.
    replace (match k with EscDefault => false | EscMatchPattern => mem 120%N [40; 41; 93]%N end) with false
      by (destruct k; reflexivity).
    rewrite (unescape_unicode_complete 4 (h ++ s) v s) by (apply H_scalar; auto). cbn [pbind].
    rewrite IH by (simpl in L; rewrite app_length in L; lia). reflexivity.
  - cbn [unescape_go N.eqb Pos.eqb negb app].
    change (simple_escape 121%N) with (@None char). cbv iota.
    replace (match k with EscDefault => false | EscMatchPattern => mem 121%N [40; 41; 93]%N end) with false
      by (destruct k; reflexivity).
    rewrite (unescape_unicode_complete 5 (h ++ s) v s) by (apply H_scalar; auto). cbn [pbind].
    rewrite IH by (simpl in L; rewrite app_length in L; lia). reflexivity.
  - change ([92; 120]%N ++ h ++ [92; 120]%N ++ l ++ s) with (92%N :: 120%N :: (h ++ [92; 120]%N ++ l ++ s)).
    cbn [unescape_go N.eqb Pos.eqb negb].
    change (simple_escape 120%N) with (@None char). cbv iota.
    replace (match k with EscDefault => false | EscMatchPattern => mem 120%N [40; 41; 93]%N end) with false
      by (destruct k; reflexivity).
    rewrite (unescape_unicode_complete 4 (h ++ [92; 120]%N ++ l ++ s) (pair_value hi lo) s) by (apply H_pair; auto).
    cbn [pbind].
    rewrite IH by (repeat (rewrite app_length in L; simpl in L); lia). reflexivity.
  - cbn [unescape_go N.eqb Pos.eqb negb app].
    change (simple_escape 120%N) with (@None char). cbv iota.
    replace (match k with EscDefault => false | EscMatchPattern => mem 120%N [40; 41; 93]%N end) with false
      by (destruct k; reflexivity).
    rewrite (unescape_unicode_complete 4 (h ++ s) 65533%N s) by (apply H_lone with (v := v); tauto). cbn [pbind].
    rewrite IH by (simpl in L; rewrite app_length in L; lia). reflexivity.
  - cbn [unescape_go N.eqb Pos.eqb negb app].
    change (simple_escape 121%N) with (@None char). cbv iota.
    replace (match k with EscDefault => false | EscMatchPattern => mem 121%N [40; 41; 93]%N end) with false
      by (destruct k; reflexivity).
    rewrite (unescape_unicode_complete 5 (h ++ s) 65533%N s)
      by (apply H_lone with (v := v); auto; intros [X _]; discriminate). cbn [pbind].
    rewrite IH by (simpl in L; rewrite app_length in L; lia). reflexivity.
Qed.

(** The escapes denote what the specification says, and nothing else is accepted. *)
Lemma unescape_spec k s t : unescape k s = Good t [] <-> Escaped (keeps k) true s t.
Proof.
  split.
  - intros H. apply unescape_go_sound in H. tauto.
  - intros H. apply unescape_go_complete; auto.
Qed.
Lemma unescape_rest k s t r : unescape k s = Good t r -> r = [].
Proof. intros H. apply unescape_go_sound in H. tauto. Qed.

(** Without a plus sign in the operand only the documented syntax is accepted. *)
Lemma low_follows_mono s : low_follows false s -> low_follows true s.
Proof. intros (l & lo & s' & E & L & Nm & H). exists l, lo, s'. auto using number_weaken. Qed.
Lemma escaped_no_plus keep s t : ~ In 43%N s -> Escaped keep true s t -> Escaped keep false s t.
Proof.
  intros NI H. induction H as [|c s t NE H IH|e x s t IN H IH|e s t KT IN H IH|h v s t Lh Nh Sc H IH|h v s t Lh Nh Sc H IH
                 |h l hi lo s t Lh Nh Hh Ll Nl Hl H IH|h v s t Lh Nh Sv NP H IH|h v s t Lh Nh Sv H IH].
  - constructor.
  - constructor; auto. apply IH. simpl in NI; tauto.
  - apply E_named; auto. apply IH. simpl in NI; tauto.
  - apply E_keep; auto. apply IH. simpl in NI; tauto.
  - rewrite !in_app_iff in NI. apply E_x; [auto|apply number_no_plus; tauto|auto|apply IH; tauto].
  - rewrite !in_app_iff in NI. apply E_y; [auto|apply number_no_plus; tauto|auto|apply IH; tauto].
  - rewrite !in_app_iff in NI. apply E_pair; try assumption; [apply number_no_plus; tauto|apply number_no_plus; tauto|apply IH; tauto].
  - rewrite !in_app_iff in NI. apply E_lone_x with (v := v); [assumption| |assumption| |apply IH; tauto].
    + apply number_no_plus; tauto.
    + intros [A B]. apply NP. split; auto. apply low_follows_mono, B.
  - rewrite !in_app_iff in NI. apply E_lone_y with (v := v); [auto|apply number_no_plus; tauto|auto|apply IH; tauto].
Qed.
Lemma escaped_weaken keep s t : ~ In 43%N s -> Escaped keep false s t -> Escaped keep true s t.
Proof.
  intros NI H. induction H as [|c s t NE H IH|e x s t IN H IH|e s t KT IN H IH|h v s t Lh Nh Sc H IH|h v s t Lh Nh Sc H IH
                 |h l hi lo s t Lh Nh Hh Ll Nl Hl H IH|h v s t Lh Nh Sv NP H IH|h v s t Lh Nh Sv H IH].
  - constructor.
  - constructor; auto. apply IH. simpl in NI; tauto.
  - apply E_named; auto. apply IH. simpl in NI; tauto.
  - apply E_keep; auto. apply IH. simpl in NI; tauto.
  - rewrite !in_app_iff in NI. apply E_x; [auto|apply number_weaken; tauto|auto|apply IH; tauto].
  - rewrite !in_app_iff in NI. apply E_y; [auto|apply number_weaken; tauto|auto|apply IH; tauto].
  - rewrite !in_app_iff in NI. apply E_pair; try assumption; [apply number_weaken; tauto|apply number_weaken; tauto|apply IH; tauto].
  - rewrite !in_app_iff in NI. apply E_lone_x with (v := v); [assumption| |assumption| |apply IH; tauto].
    + apply number_weaken; tauto.
    + intros [A (l & lo & s' & -> & L & Nm & Hl)]. apply NP. split; auto.
      exists l, lo, s'. split; [reflexivity|]. split; auto. split; auto. apply number_no_plus; auto.
      rewrite !in_app_iff in NI. tauto.
  - rewrite !in_app_iff in NI. apply E_lone_y with (v := v); [auto|apply number_weaken; tauto|auto|apply IH; tauto].
Qed.
Lemma escaped_det keep s t t' : Escaped keep true s t -> Escaped keep true s t' -> t = t'.
Proof.
  intros H H'. destruct keep.
  - apply (unescape_spec EscMatchPattern) in H, H'. congruence.
  - apply (unescape_spec EscDefault) in H, H'. congruence.
Qed.
(** The text an operand stands for is made of scalar values, is no longer than the operand,
    and is not empty unless the operand is. *)
Lemma escaped_facts keep s t : Escaped keep true s t ->
  length t <= length s /\ (s <> [] -> t <> []) /\ (Forall scalar s -> Forall scalar t).
Proof.
  intros H. induction H as [|c s t NE H IH|e x s t IN H IH|e s t KT IN H IH|h v s t Lh Nh Sc H IH|h v s t Lh Nh Sc H IH
                 |h l hi lo s t Lh Nh Hh Ll Nl Hl H IH|h v s t Lh Nh Sv NP H IH|h v s t Lh Nh Sv H IH];
    try (destruct IH as (I1 & I2 & I3)); repeat split; try (rewrite ?app_length; simpl; rewrite ?app_length; simpl; lia);
    try discriminate; auto; intros F; try (rewrite ?Forall_app in F).
  - inversion F; subst. constructor; auto.
  - inversion F as [|? ? ? F']; subst. inversion F'; subst. constructor; auto.
    simpl in IN. unfold scalar. repeat (destruct IN as [[= <- <-]|IN]; [lia|]). destruct IN.
  - inversion F as [|? ? ? F']; subst. inversion F'; subst. repeat (constructor; auto).
  - constructor; tauto.
  - constructor; tauto.
  - constructor; [|tauto]. unfold pair_value, scalar, high_surrogate, low_surrogate in *. lia.
  - constructor; [unfold scalar; lia|tauto].
  - constructor; [unfold scalar; lia|tauto].
Qed.

(** Every text of scalar values can be written as an operand. *)
Definition hex_char (d : N) : char := (if N.ltb d 10 then 48 + d else 87 + d)%N.
Definition hex5 (v : N) : str :=
  [hex_char (v / 65536); hex_char (v / 4096 mod 16); hex_char (v / 256 mod 16); hex_char (v / 16 mod 16);
   hex_char (v mod 16)]%N.
Definition hex4 (v : N) : str :=
  [hex_char (v / 4096 mod 16); hex_char (v / 256 mod 16); hex_char (v / 16 mod 16); hex_char (v mod 16)]%N.
Lemma hex_char_digit d : (d < 16)%N -> Digit16 (hex_char d) d.
Proof. intros H. unfold hex_char. destruct (N.ltb_spec d 10); [apply D_dec|apply D_lower]; lia. Qed.
Lemma hex5_value v : (v < 0x100000)%N -> Digits16 (hex5 v) v.
Proof.
  intros H. unfold hex5.
  assert (B : forall x, (x mod 16 < 16)%N) by (intros; apply N.mod_lt; lia).
  assert (T : (v / 65536 < 16)%N) by (apply N.div_lt_upper_bound; lia).
  replace v with (((((v / 65536) * 16 + v / 4096 mod 16) * 16 + v / 256 mod 16) * 16 + v / 16 mod 16) * 16 + v mod 16)%N at 6.
  - apply (Ds_snoc [hex_char (v / 65536); hex_char (v / 4096 mod 16); hex_char (v / 256 mod 16); hex_char (v / 16 mod 16)]%N); auto using hex_char_digit.
    apply (Ds_snoc [hex_char (v / 65536); hex_char (v / 4096 mod 16); hex_char (v / 256 mod 16)]%N); auto using hex_char_digit.
    apply (Ds_snoc [hex_char (v / 65536); hex_char (v / 4096 mod 16)]%N); auto using hex_char_digit.
    apply (Ds_snoc [hex_char (v / 65536)]%N); auto using hex_char_digit.
    apply Ds_one. auto using hex_char_digit.
  - pose proof (N.div_mod v 16 ltac:(lia)) as E1. pose proof (N.div_mod (v / 16) 16 ltac:(lia)) as E2.
    pose proof (N.div_mod (v / 256) 16 ltac:(lia)) as E3. pose proof (N.div_mod (v / 4096) 16 ltac:(lia)) as E4.
    rewrite N.div_div in E2, E3, E4 by lia.
    change (16 * 16)%N with 256%N in E2. change (256 * 16)%N with 4096%N in E3.
    change (4096 * 16)%N with 65536%N in E4. lia.
Qed.
Lemma hex4_value v : (v < 0x10000)%N -> Digits16 (hex4 v) v.
Proof.
  intros H. unfold hex4.
  assert (B : forall x, (x mod 16 < 16)%N) by (intros; apply N.mod_lt; lia).
  assert (T : (v / 4096 < 16)%N) by (apply N.div_lt_upper_bound; lia).
  rewrite (N.mod_small (v / 4096) 16) by exact T.
  replace v with ((((v / 4096) * 16 + v / 256 mod 16) * 16 + v / 16 mod 16) * 16 + v mod 16)%N at 5.
  - apply (Ds_snoc [hex_char (v / 4096); hex_char (v / 256 mod 16); hex_char (v / 16 mod 16)]%N); auto using hex_char_digit.
    apply (Ds_snoc [hex_char (v / 4096); hex_char (v / 256 mod 16)]%N); auto using hex_char_digit.
    apply (Ds_snoc [hex_char (v / 4096)]%N); auto using hex_char_digit.
    apply Ds_one. auto using hex_char_digit.
  - pose proof (N.div_mod v 16 ltac:(lia)) as E1. pose proof (N.div_mod (v / 16) 16 ltac:(lia)) as E2.
    pose proof (N.div_mod (v / 256) 16 ltac:(lia)) as E3.
    rewrite N.div_div in E2, E3 by lia.
    change (16 * 16)%N with 256%N in E2. change (256 * 16)%N with 4096%N in E3. lia.
Qed.
Definition high_of (v : N) : N := (0xD800 + (v - 0x10000) / 0x400)%N.
Definition low_of (v : N) : N := (0xDC00 + (v - 0x10000) mod 0x400)%N.
Definition write_char (v : char) : str :=
  if N.ltb v 0x100000 then [92; 121]%N ++ hex5 v
  else [92; 120]%N ++ hex4 (high_of v) ++ [92; 120]%N ++ hex4 (low_of v).
Definition printable (c : char) : Prop := (33 <= c <= 126)%N.
Lemma hex_char_printable d : (d < 16)%N -> printable (hex_char d).
Proof. intros H. unfold hex_char, printable. destruct (N.ltb_spec d 10); lia. Qed.
Lemma write_char_printable v : (v < 0x110000)%N -> Forall printable (write_char v).
Proof.
  intros H.
  assert (B : forall x, (x mod 16 < 16)%N) by (intros; apply N.mod_lt; lia).
  unfold write_char. destruct (N.ltb_spec v 0x100000) as [L|_]; unfold hex5, hex4; cbn [app];
    repeat apply Forall_cons; try apply Forall_nil;
    match goal with |- printable (hex_char _) => apply hex_char_printable; auto | |- _ => unfold printable; lia end.
  apply N.div_lt_upper_bound; lia.
Qed.
Lemma write_char_escaped keep v s t : scalar v -> Escaped keep true s t ->
  Escaped keep true (write_char v ++ s) (v :: t).
Proof.
  intros Sc H. unfold write_char. destruct (N.ltb_spec v 0x100000) as [L|L].
  - rewrite <- app_assoc. apply E_y; auto. apply N_digits, hex5_value, L.
  - assert (Q : ((v - 0x10000) / 0x400 < 0x400)%N) by (apply N.div_lt_upper_bound; unfold scalar in Sc; lia).
    assert (R : ((v - 0x10000) mod 0x400 < 0x400)%N) by (apply N.mod_lt; lia).
    pose proof (N.div_mod (v - 0x10000) 0x400 ltac:(lia)) as E.
    replace v with (pair_value (high_of v) (low_of v)) at 3.
    2:{ unfold pair_value, high_of, low_of. revert E Q R.
        generalize ((v - 0x10000) / 0x400)%N. generalize ((v - 0x10000) mod 0x400)%N. intros; lia. }
    rewrite <- !app_assoc. apply E_pair; auto; try (apply N_digits, hex4_value);
      unfold high_surrogate, low_surrogate, high_of, low_of; revert Q R;
      generalize ((v - 0x10000) / 0x400)%N; generalize ((v - 0x10000) mod 0x400)%N; intros; lia.
Qed.
Lemma every_text_writable keep t : Forall scalar t ->
  exists s, Forall printable s /\ Escaped keep true s t.
Proof.
  induction 1 as [|v t Sc F (s & P & E)].
  - exists []. split; constructor.
  - exists (write_char v ++ s). split.
    + apply Forall_app. split; auto. apply write_char_printable. unfold scalar in Sc. lia.
    + apply write_char_escaped; auto.
Qed.
