From Coq Require Import Permutation.
From Verif Require Import Base BaseProofs RuleModel TranslationModel TranslationProofs TableModel TableProofs RegexpModel
  RegexpSpec PatternModel MatchProofs TrieModel TrieProofs PropTrie
  HyphenationModel HyphenationProofs LoopModel LoopProofs MultipassProofs PrimaryProofs PrimaryTrace CompileModel CompileSpec
  CompileProofs MainTable ConstraintModel ConstraintSpec ConstraintProofs IndicatorModel IndicatorProofs
  CapsSpec CapsProofs CapsFacts EmphSpec EmphProofs MainSpec StepProofs TraceSpec MainPass StepFacts TraceProofs SignSpec SetupSpec SetupProofs PropMain
  UndefinedSpec PropUndefined PropIndicators CapsEmphSpec EmphWordProofs PropCapsEmph WordSpec WordProofs RoundSpec RoundProofs UncontractedSpec UncontractedProofs.

Section Back.
Variable is_alphabetic : char -> bool.
Variable read_dictionary : str -> tres hyph.
Variable x : context.
Variable table : list rule.
Variable lower upper : char -> list char.
Variable sort : list event -> res (list event).
Variable gc gn : char.
Variable m : main_table.
Hypothesis U : uncontracted table lower upper gc gn.
Hypothesis EX : context_compile is_alphabetic true table = TOk x.
Hypothesis B : main_built is_alphabetic true read_dictionary Backward x table m.
Hypothesis DR : dictionaries_read read_dictionary.
Hypothesis SR : sort_rearranges sort.
Notation src := (rule_sources true Backward x table lower).
Notation entries := (main_entries Backward x table).
Notation has_cell := (has_cell table).
Notation capital_of := (capital_of table).

(** ** The cells, with what is to be read *)
Inductive behind := BOther | BDigit | BLetter.
Record acell := mk_acell { ac_cell : char; ac_digit : bool; ac_title : bool; ac_raw : str; ac_out : str }.
Inductive reads : behind -> str -> list acell -> Prop :=
| R_nil k : reads k [] []
| R_other k c g text l : has_cell AnOther c g -> reads BOther text l -> reads k (c :: text) (mk_acell g false false [c] [c] :: l)
| R_letter k c g text l : has_cell ALetter c g -> (k = BDigit -> forall c', ~ has_cell ADigit c' g) -> reads BLetter text l ->
    reads k (c :: text) (mk_acell g false false [c] [c] :: l)
| R_capital k C c g text l : capital_of C c -> has_cell ALetter c g -> reads BLetter text l ->
    reads k (C :: text) (mk_acell gc false false [] [] :: mk_acell g false true [c] [C] :: l)
| R_number c g text l : has_cell ADigit c g -> reads BDigit text l ->
    reads BOther (c :: text) (mk_acell gn false false [] [] :: mk_acell g true false [c] [c] :: l)
| R_digit c g text l : has_cell ADigit c g -> reads BDigit text l ->
    reads BDigit (c :: text) (mk_acell g true false [c] [c] :: l).
Lemma readable_tail c text : readable table (c :: text) -> readable table text.
Proof. intros R a c1 c2 b E. apply (R (c :: a) c1 c2 b). rewrite E. reflexivity. Qed.
Lemma spelt_reads after text dots : spelt_out table gc gn after text dots -> readable table text -> forall k,
  (k = BDigit <-> after = true) ->
  (k = BLetter -> forall c t g, text = c :: t -> ~ has_cell ADigit c g) ->
  (k = BDigit -> forall c t g, text = c :: t -> has_cell ALetter c g -> forall c', ~ has_cell ADigit c' g) ->
  exists l, reads k text l /\ map ac_cell l = dots.
Proof.
  induction 1 as [after|after k0 c g text dots H Nk SO IH|after C c g text dots H H' SO IH|c g text dots H SO IH|c g text dots H SO IH]; intros R k K1 K2 K3.
  - exists []. split; [constructor|reflexivity].
  - destruct k0; [|congruence|].
    + destruct (IH (readable_tail _ _ R) BLetter) as (l & RL & EL); [split; discriminate| |discriminate|].
      { intros _ c2 t g2 E H2. subst text. destruct (R [] c c2 t eq_refl) as [R1 _]. destruct (R1 _ H2) as [R2 _]. exact (R2 _ H). }
      eexists. split; [eapply R_letter; [exact H| |exact RL]|cbn [map ac_cell]; rewrite EL; reflexivity].
      intros ->. eapply K3; [reflexivity|reflexivity|exact H].
    + destruct (IH (readable_tail _ _ R) BOther) as (l & RL & EL); [split; discriminate|discriminate|discriminate|].
      eexists. split; [eapply R_other; [exact H|exact RL]|cbn [map ac_cell]; rewrite EL; reflexivity].
  - destruct (IH (readable_tail _ _ R) BLetter) as (l & RL & EL); [split; discriminate| |discriminate|].
    { intros _ c2 t g2 E H2. subst text. destruct (R [] C c2 t eq_refl) as [R1 _]. destruct (R1 _ H2) as [_ R2]. exact (R2 _ H). }
    eexists. split; [eapply R_capital; [exact H|exact H'|exact RL]|cbn [map ac_cell]; rewrite EL; reflexivity].
  - destruct (IH (readable_tail _ _ R) BDigit) as (l & RL & EL); [split; reflexivity|discriminate| |].
    { intros _ c2 t g2 E H2. subst text. destruct (R [] c c2 t eq_refl) as [_ R1]. exact (R1 _ _ H H2). }
    destruct k; [|exfalso; destruct K1 as [K1 _]; discriminate (K1 eq_refl)|exfalso; eapply K2; [reflexivity|reflexivity|exact H]].
    eexists. split; [eapply R_number; [exact H|exact RL]|cbn [map ac_cell]; rewrite EL; reflexivity].
  - destruct (IH (readable_tail _ _ R) BDigit) as (l & RL & EL); [split; reflexivity|discriminate| |].
    { intros _ c2 t g2 E H2. subst text. destruct (R [] c c2 t eq_refl) as [_ R1]. exact (R1 _ _ H H2). }
    destruct K1 as [_ K1]. rewrite (K1 eq_refl).
    eexists. split; [eapply R_digit; [exact H|exact RL]|cbn [map ac_cell]; rewrite EL; reflexivity].
Qed.

(** ** The numbers among the cells *)
Lemma not_letter_dots g : g = gc \/ g = gn -> ~ dots_of_letter table [g].
Proof.
  intros G (c & k & H). destruct (un_signs _ _ _ _ _ U ALetter c) as [N1 N2].
  assert (Q : has_cell ALetter c g).
  { destruct H as [H|[H|H]].
    - eexists. split; [exact H|reflexivity].
    - eexists. split; [exact H|reflexivity].
    - exfalso. destruct (un_rules _ _ _ _ _ U _ H) as [X|[(s & X)|[(C & c0 & X)|[(k' & X)|X]]]]; discriminate X. }
  destruct G as [->| ->]; auto.
Qed.
Lemma numsign_read o : sign_cells table numsign o -> o = Some [gn].
Proof.
  destruct o as [g|]; cbn [sign_cells].
  - intros (_ & r & l1 & l2 & T & F & _). assert (I : In r table) by (rewrite T; apply in_elt).
    destruct (un_rules _ _ _ _ _ U _ I) as [X|[(s & X)|[(C & c0 & ->)|[(k' & ->)| ->]]]]; try discriminate F; try (destruct r; try discriminate X; discriminate F).
    injection F as <-. reflexivity.
  - intros H. exfalso. apply (not_letter_dots gn); [auto|]. apply (H (RNumsign [gn])); [apply (un_numsign _ _ _ _ _ U)|reflexivity].
Qed.
Lemma capsletter_read o : sign_cells table capsletter o -> o = Some [gc].
Proof.
  destruct o as [g|]; cbn [sign_cells].
  - intros (_ & r & l1 & l2 & T & F & _). assert (I : In r table) by (rewrite T; apply in_elt).
    destruct (un_rules _ _ _ _ _ U _ I) as [X|[(s & X)|[(C & c0 & ->)|[(k' & ->)| ->]]]]; try discriminate F; try (destruct r; try discriminate X; discriminate F).
    injection F as <-. reflexivity.
  - intros H. exfalso. destruct (un_capsletter _ _ _ _ _ U) as (k & I). apply (not_letter_dots gc); [auto|]. apply (H _ _ I). reflexivity.
Qed.
Lemma none_read f o : (forall r dots, In r table -> f r = Some dots -> False) -> sign_cells table f o -> o = None.
Proof.
  intros N. destruct o as [g|]; [|reflexivity]. cbn [sign_cells]. intros (_ & r & l1 & l2 & T & F & _).
  exfalso. apply (N r g); [rewrite T; apply in_elt|exact F].
Qed.
Ltac by_rules := let r := fresh in let g := fresh in let I := fresh in let F := fresh in let X := fresh in
  intros r g I F; destruct (un_rules _ _ _ _ _ U _ I) as [X|[(? & X)|[(? & ? & ->)|[(? & ->)| ->]]]]; try discriminate F; destruct r; try discriminate X; discriminate F.
Definition number_tok (a : acell) : number_token :=
  if ac_digit a then NumDigit (ac_cell a) else if N.eqb (ac_cell a) gn then NumSign [gn] else NumOther (ac_cell a).
Lemma number_tok_text l : flat_map number_text (map number_tok l) = map ac_cell l.
Proof.
  induction l as [|a l IH]; [reflexivity|]. cbn [map flat_map]. rewrite IH. unfold number_tok. destruct (ac_digit a); [reflexivity|].
  destruct (N.eqb_spec (ac_cell a) gn) as [E|_]; [rewrite E|]; reflexivity.
Qed.
Lemma cell_not_sign k c g : has_cell k c g -> g <> gc /\ g <> gn.
Proof. intros H. destruct (un_signs _ _ _ _ _ U k c) as [N1 N2]. split; intros ->; auto. Qed.
Lemma cells_numbers u : digit_signs is_alphabetic Backward x table u -> forall k text l, reads k text l -> forall before,
  (k = BOther -> ~ before_in before (length before) (bn_letters u)) ->
  number_read u before (match k with BDigit => true | _ => false end) (map number_tok l).
Proof.
  intros (_ & S1 & _ & S2 & DG & LT). apply numsign_read in S1. apply none_read in S2; [|by_rules].
  assert (NS : forall g bf rest, g <> gn -> ~ sign_here u bf (g :: rest)).
  { intros g bf rest N ((dd & r & E1 & E2) & _). rewrite S1 in E1. injection E1 as <-. injection E2 as E2 _. congruence. }
  assert (NE : forall s, ~ begins s (bn_end u)).
  { intros s (dd & r & E1 & _). congruence. }
  assert (BF : forall bf g, before_in (bf ++ [g]) (length (bf ++ [g])) (bn_letters u) <-> exists c, has_cell ALetter c g).
  { intros bf g. rewrite <- (letter_cell_iff _ _ _ _ _ _ _ U EX g), <- LT. unfold before_in, at_in. rewrite app_length. cbn [length]. split.
    - intros (q & Eq & c & Ec & I). assert (q = length bf) as -> by lia. rewrite nth_error_app2, Nat.sub_diag in Ec by lia. injection Ec as <-. exact I.
    - intros I. exists (length bf). split; [lia|]. exists g. split; [rewrite nth_error_app2, Nat.sub_diag by lia; reflexivity|exact I]. }
  assert (DC : forall g, In g (bn_digits u) <-> exists c, has_cell ADigit c g).
  { intros g. rewrite DG. apply (digit_cell_iff _ _ _ _ _ _ _ U EX). }
  assert (OD : forall c g, has_cell AnOther c g -> ~ In g (bn_digits u) /\ ~ exists c', has_cell ALetter c' g).
  { intros c g H. split.
    - intros I. apply DC in I. destruct I as (c' & H'). destruct (cell_shared _ _ _ _ _ U _ _ _ _ _ H H') as [<-|[[X _]|[X _]]]; try discriminate X.
      destruct (un_char _ _ _ _ _ U _ _ _ _ _ H H') as [X _]. discriminate X.
    - intros (c' & H'). destruct (cell_shared _ _ _ _ _ U _ _ _ _ _ H H') as [<-|[[X _]|[X _]]]; try discriminate X.
      destruct (un_char _ _ _ _ _ U _ _ _ _ _ H H') as [X _]. discriminate X. }
  assert (TO : forall g t r o, g <> gn -> number_tok (mk_acell g false t r o) = NumOther g).
  { intros g t r o N. unfold number_tok. cbn [ac_digit ac_cell]. destruct (N.eqb_spec g gn); [congruence|reflexivity]. }
  induction 1 as [k|k c g text l H RD IH|k c g text l H H0 RD IH|k C c g text l H H' RD IH|c g text l H RD IH|c g text l H RD IH]; intros bf BK; cbn [map].
  - constructor.
  - destruct (cell_not_sign _ _ _ H) as [_ N]. rewrite TO by exact N. apply NR_other; [apply NS, N| |].
    + intros _. split; [apply NE|apply (OD _ _ H)].
    + apply IH. intros _. rewrite BF. apply (OD _ _ H).
  - destruct (cell_not_sign _ _ _ H) as [_ N]. rewrite TO by exact N. apply NR_other; [apply NS, N| |].
    + intros Ek. split; [apply NE|]. rewrite DC. intros (c' & X). destruct k; try discriminate Ek. exact (H0 eq_refl _ X).
    + apply IH. discriminate.
  - rewrite TO by (apply (un_differ _ _ _ _ _ U)). destruct (cell_not_sign _ _ _ H') as [_ N]. rewrite TO by exact N.
    apply NR_other; [apply NS, (un_differ _ _ _ _ _ U)| |].
    + intros _. split; [apply NE|]. rewrite DC. intros (c' & X). destruct (cell_not_sign _ _ _ X) as [X' _]. congruence.
    + apply NR_other; [apply NS, N|discriminate|]. apply IH. discriminate.
  - destruct (cell_not_sign _ _ _ H) as [_ N].
    assert (E1 : number_tok (mk_acell gn false false [] []) = NumSign [gn]) by (unfold number_tok; cbn [ac_digit ac_cell]; rewrite N.eqb_refl; reflexivity).
    rewrite E1. apply NR_sign; [exact S1|auto|]. unfold number_tok at 1. cbn [ac_digit ac_cell]. apply NR_digit; [apply DC; eauto|apply NS, N|apply NE|].
    apply IH. discriminate.
  - destruct (cell_not_sign _ _ _ H) as [_ N]. unfold number_tok at 1. cbn [ac_digit ac_cell]. apply NR_digit; [apply DC; eauto|apply NS, N|apply NE|].
    apply IH. discriminate.
Qed.
Lemma map_digit_position l p : digit_position (map number_tok l) p <-> exists a, nth_error l p = Some a /\ ac_digit a = true.
Proof.
  unfold digit_position. split.
  - intros (a & c & b & E & Ep). apply map_eq_app in E. destruct E as (l1 & l2 & -> & <- & E). destruct l2 as [|y l2]; [discriminate E|].
    cbn [map] in E. injection E as E _. rewrite number_tok_text, map_length in Ep. subst p. exists y. split; [rewrite nth_error_app2, Nat.sub_diag by lia; reflexivity|].
    unfold number_tok in E. destruct (ac_digit y); [reflexivity|]. destruct (N.eqb _ _); discriminate E.
  - intros (a & E & D). apply nth_error_split in E. destruct E as (l1 & l2 & -> & <-). exists (map number_tok l1), (ac_cell a), (map number_tok l2).
    rewrite map_app. cbn [map]. split; [f_equal; unfold number_tok at 1; rewrite D; reflexivity|]. rewrite number_tok_text, map_length. reflexivity.
Qed.
(** ** The capitals *)
Definition caps_tok (a : acell) : caps_token := if N.eqb (ac_cell a) gc then CapsLetter [gc] else Plain (ac_cell a).
Lemma caps_tok_text l : flat_map token_text (map caps_tok l) = map ac_cell l.
Proof.
  induction l as [|a l IH]; [reflexivity|]. cbn [map flat_map]. rewrite IH. unfold caps_tok.
  destruct (N.eqb_spec (ac_cell a) gc) as [E|_]; [rewrite E|]; reflexivity.
Qed.
Lemma cells_caps u l : capital_cells is_alphabetic Backward x table u -> caps_read u (map caps_tok l).
Proof.
  intros (_ & S1 & S2 & _). apply capsletter_read in S1. apply none_read in S2; [|by_rules].
  induction l as [|a l IH]; [constructor|]. cbn [map]. constructor; [|exact IH]. unfold caps_tok at 1.
  destruct (N.eqb_spec (ac_cell a) gc) as [E|N]; cbn [token_fits].
  - split; [|exact S1]. intros (dd & r & E1 & _). congruence.
  - split; intros (dd & r & E1 & E2); [congruence|]. rewrite S1 in E1. injection E1 as <-. injection E2 as E2 _. congruence.
Qed.
Lemma no_upper l p : ~ upper_position (map caps_tok l) p.
Proof.
  intros (a & dots & letters & close & b & E & _). assert (I : In (CapsWord dots letters close) (map caps_tok l)) by (rewrite E; apply in_elt).
  apply in_map_iff in I. destruct I as (y & X & _). unfold caps_tok in X. destruct (N.eqb _ _); discriminate X.
Qed.
Lemma map_title_position l p : title_position (map caps_tok l) p <-> exists q b, p = S q /\ nth_error l q = Some b /\ ac_cell b = gc.
Proof.
  unfold title_position. split.
  - intros (a & dots & b & E & Ep). apply map_eq_app in E. destruct E as (l1 & l2 & -> & <- & E). destruct l2 as [|y l2]; [discriminate E|].
    cbn [map] in E. injection E as E _. unfold caps_tok in E. destruct (N.eqb_spec (ac_cell y) gc) as [X|X]; [|discriminate E]. injection E as <-.
    rewrite app_length, caps_tok_text, map_length in Ep. cbn [length] in Ep. exists (length l1), y. split; [lia|]. split; [rewrite nth_error_app2, Nat.sub_diag by lia; reflexivity|exact X].
  - intros (q & b & -> & E & X). apply nth_error_split in E. destruct E as (l1 & l2 & -> & <-). exists (map caps_tok l1), [gc], (map caps_tok l2).
    rewrite map_app. cbn [map]. split; [f_equal; unfold caps_tok at 1; rewrite X, N.eqb_refl; reflexivity|]. rewrite app_length, caps_tok_text, map_length. cbn [length]. lia.
Qed.
Lemma head_plain k text a l : reads k text (a :: l) -> ac_title a = false.
Proof. intros H. inversion H; reflexivity. Qed.
Lemma title_behind : forall k text l, reads k text l -> forall p a, nth_error l p = Some a ->
  (ac_title a = true <-> exists q b, p = S q /\ nth_error l q = Some b /\ ac_cell b = gc).
Proof.
  assert (ONE : forall y l, ac_cell y <> gc -> (forall a l', l = a :: l' -> ac_title a = false) ->
     (forall p a, nth_error l p = Some a -> (ac_title a = true <-> exists q b, p = S q /\ nth_error l q = Some b /\ ac_cell b = gc)) ->
     forall p a, nth_error (y :: l) (S p) = Some a -> (ac_title a = true <-> exists q b, S p = S q /\ nth_error (y :: l) q = Some b /\ ac_cell b = gc)).
  { intros y l N Hd IH p a E. cbn [nth_error] in E. destruct p as [|p].
    - destruct l as [|a' l]; [discriminate E|]. injection E as ->. rewrite (Hd a l eq_refl). split; [discriminate|].
      intros (q & b & Eq & E & X). injection Eq as <-. injection E as <-. congruence.
    - rewrite (IH _ _ E). split.
      + intros (q & b & Eq & Eb & X). injection Eq as <-. exists (S p), b. auto.
      + intros (q & b & Eq & Eb & X). injection Eq as <-. exists p, b. auto. }
  assert (Z : forall y l, ac_title y = false -> forall a, nth_error (y :: l) 0 = Some a -> (ac_title a = true <-> exists q b, 0 = S q /\ nth_error (y :: l) q = Some b /\ ac_cell b = gc)).
  { intros y l T a E. injection E as <-. rewrite T. split; [discriminate|]. intros (q & b & Eq & _). discriminate Eq. }
  assert (HD : forall k text l, reads k text l -> forall a l', l = a :: l' -> ac_title a = false) by (intros k0 t0 l0 H a l' ->; eapply head_plain, H).
  induction 1 as [k|k c g text l H RD IH|k c g text l H H0 RD IH|k C c g text l H H' RD IH|c g text l H RD IH|c g text l H RD IH];
    intros [|p] a E; try (eapply Z; [reflexivity|exact E]); try discriminate E.
  - eapply ONE; [|eapply HD, RD|exact IH|exact E]. apply (cell_not_sign _ _ _ H).
  - eapply ONE; [|eapply HD, RD|exact IH|exact E]. apply (cell_not_sign _ _ _ H).
  - destruct p as [|p].
    + injection E as <-. split; [|reflexivity]. intros _. exists 0, (mk_acell gc false false [] []). auto.
    + pose proof (ONE (mk_acell g false true [c] [C]) l (proj1 (cell_not_sign _ _ _ H')) (HD _ _ _ RD) IH p a E) as Q. rewrite Q. split.
      * intros (q & b & Eq & Eb & X). injection Eq as <-. exists (S p), b. auto.
      * intros (q & b & Eq & Eb & X). injection Eq as <-. exists p, b. auto.
  - pose proof (ONE (mk_acell g true false [c] [c]) l (proj1 (cell_not_sign _ _ _ H)) (HD _ _ _ RD) IH) as Q.
    eapply (ONE (mk_acell gn false false [] []) (mk_acell g true false [c] [c] :: l)); [|intros a0 l' X; injection X as <- _; reflexivity| |exact E].
    + intros X. apply (un_differ _ _ _ _ _ U). symmetry. exact X.
    + intros [|q] b Eb; [eapply Z; [reflexivity|exact Eb]|apply Q, Eb].
  - eapply ONE; [|eapply HD, RD|exact IH|exact E]. apply (cell_not_sign _ _ _ H).
Qed.

(** ** What the cells are read as *)
Definition right (a : acell) : Prop :=
  (ac_digit a = false /\ (ac_cell a = gc \/ ac_cell a = gn) /\ ac_raw a = []) \/
  (exists k c, (ac_digit a = true <-> k = ADigit) /\ has_cell k c (ac_cell a) /\ ac_raw a = [c]).
Definition in_case (a : acell) : Prop :=
  (ac_title a = false -> ac_out a = ac_raw a) /\ (ac_title a = true -> exists c, ac_raw a = [c] /\ upper c = ac_out a).
Lemma reads_right k text l : reads k text l -> Forall right l /\ Forall in_case l /\ flat_map ac_out l = text.
Proof.
  assert (S1 : forall g, g = gc \/ g = gn -> right (mk_acell g false false [] [])) by (intros g G; left; auto).
  assert (P1 : forall k c g t o, k <> ADigit -> has_cell k c g -> right (mk_acell g false t [c] o)).
  { intros k0 c g t o N H. right. exists k0, c. cbn. split; [split; [discriminate|congruence]|]. auto. }
  assert (D1 : forall c g t o, has_cell ADigit c g -> right (mk_acell g true t [c] o)).
  { intros c g t o H. right. exists ADigit, c. cbn. split; [split; reflexivity|]. auto. }
  assert (C1 : forall g q r, in_case (mk_acell g q false r r)) by (intros g q r; split; [reflexivity|discriminate]).
  induction 1 as [k|k c g text l H RD IH|k c g text l H H0 RD IH|k C c g text l H H' RD IH|c g text l H RD IH|c g text l H RD IH];
    try (destruct IH as (I1 & I2 & I3)); cbn [flat_map ac_out app]; rewrite ?I3; (split; [|split; [|reflexivity]]);
    repeat (apply Forall_cons || apply Forall_nil); auto; try (eapply P1; [|eassumption]; discriminate).
  split; [discriminate|]. cbn. intros _. exists c. split; [reflexivity|]. apply (capital_facts _ _ _ _ _ U _ _ H).
Qed.
(** ** The entries *)
Lemma main_parts {A} (f : rule -> list A) l : forall l1 a l2, flat_map f l = l1 ++ a :: l2 ->
  exists t1 r t2 p, l = t1 ++ r :: t2 /\ In a (f r) /\ l1 = flat_map f t1 ++ p.
Proof.
  induction l as [|y l IH]; intros l1 a l2 E; [destruct l1; discriminate E|]. cbn [flat_map] in E. apply app_eq_cases in E.
  destruct E as [(e & E1 & E2)|(e & E1 & E2)].
  - destruct (IH _ _ _ E2) as (t1 & r & t2 & p & -> & I & ->). exists (y :: t1), r, t2, p. split; [reflexivity|]. split; [exact I|].
    rewrite E1. cbn [flat_map]. rewrite app_assoc. reflexivity.
  - destruct e as [|z e].
    + cbn [app] in E2. symmetry in E2. destruct (IH [] a l2 E2) as (t1 & r & t2 & p & -> & I & E3). exists (y :: t1), r, t2, p. split; [reflexivity|]. split; [exact I|].
      cbn [flat_map]. rewrite <- app_assoc, <- E3, app_nil_r. rewrite E1, app_nil_r. reflexivity.
    + injection E2 as <- _. exists [], y, l, l1. split; [reflexivity|]. split; [rewrite E1; apply in_elt|reflexivity].
Qed.
(** an entry from a rule *)
Inductive entry_of (a : ins_args) (r : rule) : Prop :=
| E_char k c g : one_cell r = Some (k, c, g) -> i_to a = [g] -> i_from a = [c] -> entry_of a r
| E_base C c g : r = RBase uppercase C c -> has_cell ALetter c g -> i_to a = [g] -> i_from a = [C] -> entry_of a r
| E_sign g : g = gc \/ g = gn -> i_to a = [g] -> i_from a = [] -> strong a -> entry_of a r.
Definition plain_entry (a : ins_args) : Prop := pre_conditions a = [] /\ post_conditions a = [].
Lemma first_entry a r : In r table -> In a (backward_only Backward (character_entries first_characters r)) ->
  plain_entry a /\ i_origin a = Some r /\ ~ strong a /\ exists c g, one_cell r = Some (AnOther, c, g) /\ i_to a = [g] /\ i_from a = [c].
Proof.
  intros Hr H. cbn [backward_only is_backward] in H.
  destruct (un_rules _ _ _ _ _ U _ Hr) as [X|[([[k c] g] & X)|[(C & c0 & ->)|[(k' & ->)| ->]]]]; try (destruct H; fail); destruct r; try discriminate X; try (destruct H; fail).
  cbn in H, X. destruct dots as [|g1 [|g2 dots]]; try discriminate X. injection X as <- <- <-. destruct H as [<-|[]]. unfold plain_entry, strong. cbn.
  split; [auto|]. split; [reflexivity|]. split; [intros Q; apply Q; reflexivity|]. eauto.
Qed.
Lemma other_entry a r : In r table -> In a (main_entries_of Backward x table r) ->
  plain_entry a /\ i_origin a = Some r /\ entry_of a r /\ (strong a -> exists g, (g = gc \/ g = gn) /\ i_to a = [g]).
Proof.
  intros Hr H. unfold main_entries_of in H. rewrite !in_app_iff in H. cbn [backward_only is_backward] in H.
  destruct (un_rules _ _ _ _ _ U _ Hr) as [X|[([[k c] g] & X)|[(C & c0 & ->)|[(k' & ->)| ->]]]].
  - exfalso. destruct r; try discriminate X; cbn in H; tauto.
  - assert (Q : In a (character_entries (other_characters Backward x table) r)).
    { destruct H as [H|[H|H]]; [exact H| |]; exfalso; destruct r; try discriminate X; try (destruct H; fail); cbn in H; destruct (nocross _); destruct H. }
    clear H. destruct r; try discriminate X; cbn in X, Q; (destruct dots as [|g1 [|g2 dots]]; try discriminate X; injection X as <- <- <-);
      try (destruct Q; fail); destruct Q as [<-|[]]; unfold plain_entry, strong; cbn; (split; [auto|]); (split; [reflexivity|]);
      (split; [eapply E_char; reflexivity|]); intros Q; exfalso; apply Q; reflexivity.
  - destruct H as [H|[H|H]]; [|destruct H|destruct H]. destruct (capital_letter _ _ _ _ _ U _ _ Hr) as (g & HC).
    unfold character_entries in H. cbn [other_characters] in H. rewrite (cell_of _ _ _ _ _ _ _ U EX _ _ _ HC) in H. destruct H as [<-|[]].
    unfold plain_entry, strong; cbn. split; [auto|]. split; [reflexivity|]. split; [eapply E_base; eauto|]. intros Q. exfalso. apply Q. reflexivity.
  - destruct H as [H|[H|H]]; [destruct H| |cbn in H; destruct (nocross k'); destruct H]. unfold indicator_entries in H.
    destruct (is_backward _ && _)%bool; [|destruct H]. destruct H as [<-|[]].
    unfold plain_entry, strong; cbn. split; [auto|]. split; [reflexivity|]. split; [apply (E_sign _ _ gc); [auto|reflexivity|reflexivity|unfold strong; cbn; discriminate]|]. eauto.
  - destruct H as [H|[H|H]]; [destruct H| |destruct H]. unfold indicator_entries in H.
    destruct (is_backward _ && _)%bool; [|destruct H]. destruct H as [<-|[]].
    unfold plain_entry, strong; cbn. split; [auto|]. split; [reflexivity|]. split; [apply (E_sign _ _ gn); [auto|reflexivity|reflexivity|unfold strong; cbn; discriminate]|]. eauto.
Qed.
Lemma main_entry a : In a entries -> plain_entry a /\ exists r, In r table /\ i_origin a = Some r /\ entry_of a r.
Proof.
  unfold main_entries. rewrite in_app_iff, !in_flat_map. intros [(r & Hr & H)|(r & Hr & H)].
  - destruct (first_entry _ _ Hr H) as (P & O & _ & c & g & E1 & E2 & E3). split; [exact P|]. exists r. split; [exact Hr|]. split; [exact O|]. eapply E_char; eauto.
  - destruct (other_entry _ _ Hr H) as (P & O & E & _). split; [exact P|]. eauto.
Qed.
Lemma char_entry r k c g : In r table -> one_cell r = Some (k, c, g) ->
  exists a, (In a (backward_only Backward (character_entries first_characters r)) /\ k = AnOther \/ In a (main_entries_of Backward x table r)) /\ i_to a = [g] /\ plain_entry a.
Proof.
  intros Hr X. exists (mk_ins [c] [g] None None (rule_precedence r) [] Main (Some r)). split; [|split; [reflexivity|split; reflexivity]].
  destruct r; try discriminate X; cbn in X; (destruct dots as [|g1 [|g2 dots]]; try discriminate X; injection X as <- <- <-); unfold main_entries_of; cbn; auto.
Qed.
Lemma sign_entry g : g = gc \/ g = gn -> exists a, In a entries /\ i_to a = [g] /\ plain_entry a.
Proof.
  intros G. assert (L : is_letter_dots Backward table [g] = false).
  { destruct (is_letter_dots Backward table [g]) eqn:E; [|reflexivity]. apply is_letter_dots_spec in E; [|reflexivity]. destruct (not_letter_dots g G E). }
  destruct G as [-> | ->].
  - destruct (un_capsletter _ _ _ _ _ U) as (k & I). exists (mk_ins [] [gc] None None (rule_precedence (RCapsletter [gc] k)) [] Main (Some (RCapsletter [gc] k))).
    split; [|split; [reflexivity|split; reflexivity]]. unfold main_entries. apply in_or_app. right. apply in_flat_map. eexists. split; [exact I|].
    unfold main_entries_of, indicator_entries. rewrite L. apply in_or_app. right. left. reflexivity.
  - pose proof (un_numsign _ _ _ _ _ U) as I. exists (mk_ins [] [gn] None None (rule_precedence (RNumsign [gn])) [] Main (Some (RNumsign [gn]))).
    split; [|split; [reflexivity|split; reflexivity]]. unfold main_entries. apply in_or_app. right. apply in_flat_map. eexists. split; [exact I|].
    unfold main_entries_of, indicator_entries. rewrite L. apply in_or_app. right. left. reflexivity.
Qed.
Lemma plain_rivals ctx a b : plain_entry a -> plain_entry b -> i_to a = i_to b -> rivals ctx Backward a b.
Proof. intros [P1 P2] [Q1 Q2] E. split; [exact E|]. rewrite P1, P2, Q1, Q2. split; constructor. Qed.

(** the rule in force for a cell *)
Lemma in_force_cell full a g : in_force true (trie_ctx Backward x) Backward entries full a -> i_to a = [g] ->
  (g = gc \/ g = gn -> i_from a = []) /\
  (forall k c, has_cell k c g -> (k = ADigit -> forall c', ~ has_cell ALetter c' g) -> i_from a = [c]).
Proof.
  intros IF Eg. split.
  - intros G. apply in_force_in in IF. destruct (main_entry _ IF) as (_ & r & Hr & _ & EO). destruct EO as [k c g' X1 X2 X3|C c g' X1 X2 X3 X4|g' X1 X2 X3 X4]; [exfalso|exfalso|exact X3].
    + rewrite Eg in X2. injection X2 as <-. assert (HC : has_cell k c g) by (exists r; auto). apply cell_not_sign in HC. tauto.
    + rewrite Eg in X3. injection X3 as <-. apply cell_not_sign in X2. tauto.
  - intros k c HC NL. pose proof IF as IF'. apply in_force_in in IF'. destruct (main_entry _ IF') as (PA & _).
    destruct IF as (l1 & l2 & Es & (_ & Fst) & _).
    assert (NS : ~ strong a).
    { intros S. unfold main_entries in IF'. rewrite in_app_iff, !in_flat_map in IF'. destruct (cell_not_sign _ _ _ HC). destruct IF' as [(r & Hr & H')|(r & Hr & H')].
      - destruct (first_entry _ _ Hr H') as (_ & _ & N & _). exact (N S).
      - destruct (other_entry _ _ Hr H') as (_ & _ & _ & N). destruct (N S) as (g' & G' & E'). rewrite Eg in E'. injection E' as <-. tauto. }
    destruct Fst as [Fst|Fst]; [|contradiction].
    (* a letter's rule is not behind *)
    assert (KEY : forall t1 r t2 p, table = t1 ++ r :: t2 -> l1 = flat_map (fun r => backward_only Backward (character_entries first_characters r)) table ++ flat_map (main_entries_of Backward x table) t1 ++ p ->
      entry_of a r -> i_from a = [c]).
    { intros t1 r t2 p ET E1 EO.
      assert (Hr : In r table) by (rewrite ET; apply in_elt).
      assert (BEF : forall r0 c0, In r0 t1 -> one_cell r0 = Some (ALetter, c0, g) -> False).
      { intros r0 c0 I0 X0. assert (It : In r0 table) by (rewrite ET; apply in_or_app; auto).
        destruct (char_entry r0 _ _ _ It X0) as (a0 & [[_ A0]|A0] & Ea0 & P0); [discriminate A0|].
        apply (Fst a0); [|apply plain_rivals; [exact PA|exact P0|rewrite Eg, Ea0; reflexivity]]. rewrite E1. apply in_or_app. right. apply in_or_app. left. apply in_flat_map. eauto. }
      destruct EO as [k' c' g' X1 X2 X3|C c' g' X1 X2 X3 X4|g' X1 X2 X3 X4].
      - rewrite Eg in X2. injection X2 as <-. rewrite X3. f_equal. assert (HC' : has_cell k' c' g) by (exists r; auto).
        destruct (cell_shared _ _ _ _ _ U _ _ _ _ _ HC HC') as [->|[[-> ->]|[-> ->]]]; [reflexivity| |].
        + exfalso. destruct HC as (r0 & H0 & E0). rewrite ET in H0. apply in_app_or in H0. destruct H0 as [H0|[->|H0]].
          * exact (BEF _ _ H0 E0).
          * congruence.
          * apply in_split in H0. destruct H0 as (b1 & b2 & ->). destruct (un_cell _ _ _ _ _ U _ _ _ _ _ _ _ _ _ _ ET X1 E0) as [->|[Q _]]; [|discriminate Q].
            assert (HL : has_cell ALetter c g) by (exists r0; split; [rewrite ET; apply in_or_app; right; right; apply in_elt|exact E0]).
            destruct (un_char _ _ _ _ _ U _ _ _ _ _ HL HC') as [Q _]. discriminate Q.
        + exfalso. exact (NL eq_refl _ HC').
      - exfalso. rewrite Eg in X3. injection X3 as <-. subst r. destruct (un_base _ _ _ _ _ U _ _ _ _ ET) as ((r0 & g0 & I0 & E0) & _).
        assert (HL : has_cell ALetter c' g0) by (exists r0; split; [rewrite ET; apply in_or_app; auto|exact E0]).
        destruct (un_char _ _ _ _ _ U _ _ _ _ _ X2 HL) as [_ <-]. exact (BEF _ _ I0 E0).
      - exfalso. rewrite Eg in X2. injection X2 as <-. destruct (cell_not_sign _ _ _ HC). tauto. }
    unfold main_entries in Es. apply app_eq_cases in Es. destruct Es as [(e & E1 & E2)|(e & E1 & E2)].
    + destruct (main_parts _ _ _ _ _ E2) as (t1 & r & t2 & p & ET & I & ->). destruct (other_entry a r) as (_ & _ & EO & _); [rewrite ET; apply in_elt|exact I|].
      eapply KEY; eauto.
    + destruct e as [|z e].
      * cbn [app] in E2. symmetry in E2. destruct (main_parts _ _ [] _ _ E2) as (t1 & r & t2 & p & ET & I & E3).
        destruct (other_entry a r) as (_ & _ & EO & _); [rewrite ET; apply in_elt|exact I|]. eapply KEY; [exact ET| |exact EO].
        rewrite <- E3, app_nil_r. rewrite app_nil_r in E1. symmetry. exact E1.
      * injection E2 as <- _. assert (I : In a (flat_map (fun r => backward_only Backward (character_entries first_characters r)) table)) by (rewrite E1; apply in_elt).
        apply in_flat_map in I. destruct I as (r & Hr & I). destruct (first_entry _ _ Hr I) as (_ & _ & _ & c' & g' & X1 & X2 & X3).
        rewrite Eg in X2. injection X2 as <-. rewrite X3. f_equal. assert (HC' : has_cell AnOther c' g) by (exists r; auto).
        destruct (cell_shared _ _ _ _ _ U _ _ _ _ _ HC HC') as [->|[[_ Q]|[_ Q]]]; [reflexivity|discriminate Q|discriminate Q].
Qed.
(** ** The digits *)
Lemma digit_read g u : assoc g (digit_table Backward table) = Some u -> r_length u = 1 /\ exists c, has_cell ADigit c g /\ r_output u = [c].
Proof.
  intros H. apply assoc_In in H. unfold digit_table in H. apply in_rev, in_flat_map in H. destruct H as (r & Hr & H).
  destruct (un_rules _ _ _ _ _ U _ Hr) as [X|[([[k c] g0] & X)|[(C & c0 & ->)|[(k' & ->)| ->]]]]; try (destruct H; fail); destruct r; try discriminate X; try (destruct H; fail).
  cbn in H, X. destruct dots as [|g1 [|g2 dots]]; try discriminate X. injection X as <- <- <-. destruct (existsb _ _); [|destruct H].
  destruct H as [H|[]]. injection H as <- <-. split; [reflexivity|]. eexists. split; [eexists; split; [exact Hr|reflexivity]|reflexivity].
Qed.
Lemma digit_exists c g : has_cell ADigit c g -> (exists c', has_cell ALetter c' g) -> exists u, assoc g (digit_table Backward table) = Some u.
Proof.
  intros (r & Hr & X) (c' & r' & Hr' & X'). destruct (assoc g (digit_table Backward table)) as [u|] eqn:A; [eauto|]. exfalso.
  destruct r; try discriminate X; cbn in X; destruct dots as [|g1 [|g2 dots]]; try discriminate X. injection X as -> ->.
  apply (proj1 (assoc_None _ _) A (resolved_new [g] [c] 1 Main (Some (RLitdigit c [g] k)))). unfold digit_table. apply -> in_rev. apply in_flat_map. eexists. split; [exact Hr|].
  cbn [digit_entries is_backward andb]. assert (L : is_letter_dots Backward table [g] = true).
  { apply is_letter_dots_spec; [reflexivity|]. destruct r'; try discriminate X'; cbn in X'; destruct dots as [|g1 [|g2 dots]]; try discriminate X'; injection X' as -> ->; eexists; eexists; eauto. }
  match goal with |- context [if ?e then _ else _] => replace e with true by (symmetry; exact L) end. left. reflexivity.
Qed.

(** ** The reading of the cells *)
Variable text : str.
Variable l : list acell.
Hypothesis RD : reads BOther text l.
Notation input := (map ac_cell l).
Lemma good_cell g : In g input -> g = gc \/ g = gn \/ exists k c, has_cell k c g.
Proof.
  intros I. apply in_map_iff in I. destruct I as (a & <- & I). destruct (reads_right _ _ _ RD) as [F _]. rewrite Forall_forall in F.
  destruct (F a I) as [(_ & [G|G] & _)|(k & c & _ & H & _)]; eauto.
Qed.
Lemma cell_plain g : In g input -> lower g = [g] /\ (forall k g', ~ has_cell k g g') /\ (forall c, ~ capital_of g c).
Proof. intros I. apply (un_cells _ _ _ _ _ U), good_cell, I. Qed.
Lemma no_digit_at p : ~ digit_at table input p.
Proof. intros (c & g & E & H). apply nth_error_In, cell_plain in E. destruct E as (_ & E & _). exact (E _ _ H). Qed.
Lemma no_capital_at p : ~ capital_at table input p.
Proof. intros (c & g & E & H). apply nth_error_In, cell_plain in E. destruct E as (_ & _ & E). exact (E _ H). Qed.

Section Limits.
Variable lim : pos_flags.
Hypothesis R : table_restricts is_alphabetic read_dictionary Backward x table input [] lim.
Lemma flags p a : nth_error l p = Some a -> flag_at k_comp6 lim p = false /\ flag_at k_dont_contract lim p = false /\
  flag_at k_digit lim p = ac_digit a /\ flag_at k_uppercase lim p = false /\ flag_at k_titlecase lim p = ac_title a.
Proof.
  intros Ea. assert (Q : forall b, (b = true -> False) -> b = false) by (intros [|] H; [exfalso; auto|reflexivity]).
  assert (Q2 : forall b b', (b = true <-> b' = true) -> b = b') by (intros [|] [|] H; try reflexivity; [symmetry|]; apply H; reflexivity).
  assert (NU : exists u, digit_signs is_alphabetic Backward x table u).
  { destruct (build_number is_alphabetic Backward x table) as [u|] eqn:E; [exists u; apply number_built, E|]. exfalso. unfold build_number in E.
    pose proof (backward_dots_spec Backward table numsign eq_refl) as S1. apply numsign_read in S1. unfold numsign in S1. rewrite S1 in E. discriminate E. }
  assert (CU : exists u, capital_cells is_alphabetic Backward x table u).
  { destruct (build_caps is_alphabetic Backward x table) as [u|] eqn:E; [exists u; apply caps_built, E|]. exfalso. unfold build_caps in E.
    pose proof (backward_dots_spec Backward table capsletter eq_refl) as S1. apply capsletter_read in S1. unfold capsletter in S1. rewrite S1 in E. discriminate E. }
  assert (LP : p < length input) by (rewrite map_length; apply nth_error_Some; intros X; pose proof (eq_trans (eq_sym Ea) X) as Y; discriminate Y).
  assert (NQ : forall u ts, digit_signs is_alphabetic Backward x table u -> number_read u [] false ts -> flat_map number_text ts = input -> ts = map number_tok l).
  { intros u ts DS NR E. eapply (number_read_unique u [] false); [| |exact NR| |rewrite number_tok_text; exact E].
    - intros dd Hd. destruct DS as (_ & S1 & _). apply numsign_read in S1. rewrite S1 in Hd. injection Hd as <-. discriminate.
    - intros dd Hd. destruct DS as (_ & _ & _ & S1 & _). apply none_read in S1; [congruence|by_rules].
    - apply (cells_numbers u DS BOther text l RD []). intros _ (q & Eq & _). discriminate Eq. }
  assert (CQ : forall u ts, capital_cells is_alphabetic Backward x table u -> caps_read u ts -> flat_map token_text ts = input -> ts = map caps_tok l).
  { intros u ts DS NR E. eapply (caps_read_unique u); [| |exact NR| |rewrite caps_tok_text; exact E].
    - intros dd Hd. destruct DS as (_ & S1 & _). apply capsletter_read in S1. rewrite S1 in Hd. injection Hd as <-. discriminate.
    - intros dd Hd. destruct DS as (_ & _ & S1 & _). apply none_read in S1; [congruence|by_rules].
    - apply cells_caps, DS. }
  split; [|split; [|split; [|split]]].
  - apply Q. intros H. apply (tr_comp _ _ _ _ _ _ _ _ R) in H. destruct H as ((s & [] & _) & _).
  - apply Q. intros H. apply (tr_number _ _ _ _ _ _ _ _ R) in H. destruct H as (u & (NC & _) & H).
    apply (in_number_iff _ _ _ _ _ _ _ _ _ _ U EX B u input p NC) in H. exact (no_digit_at _ H).
  - apply Q2. rewrite (tr_digit _ _ _ _ _ _ _ _ R). split.
    + intros (u & ts & DS & NR & E & P). rewrite (NQ u ts DS NR E) in P. apply map_digit_position in P. destruct P as (b & Eb & D). congruence.
    + intros D. destruct NU as (u & DS). exists u, (map number_tok l). split; [exact DS|]. split; [apply (cells_numbers u DS BOther text l RD []); intros _ (q & Eq & _); discriminate Eq|].
      split; [apply number_tok_text|]. apply map_digit_position. eauto.
  - apply Q. intros H. apply (tr_upper _ _ _ _ _ _ _ _ R) in H. destruct H as (u & ts & C & CR & E & P). rewrite (CQ u ts C CR E) in P. exact (no_upper _ _ P).
  - apply Q2. rewrite (tr_title _ _ _ _ _ _ _ _ R), (title_behind _ _ _ RD p a Ea), <- map_title_position. split.
    + intros (u & ts & DS & NR & E & P & _). rewrite (CQ u ts DS NR E) in P. exact P.
    + intros P. destruct CU as (u & DS). exists u, (map caps_tok l). split; [exact DS|]. split; [apply cells_caps, DS|]. split; [apply caps_tok_text|]. auto.
Qed.
Lemma offered rest prev u : (forall c, In c rest -> In c input) -> by_text src rest prev u ->
  exists full a g rest', in_force true (trie_ctx Backward x) Backward entries full a /\ rest = g :: rest' /\ i_to a = [g] /\
    r_length u = 1 /\ r_output u = i_from a /\ forall p, punc_ok lim p u = true.
Proof.
  intros S (full & a & F & (rest' & M & _) & ->). pose proof F as F'. apply in_force_in in F'. destruct (main_entry _ F') as (_ & r & Hr & O & EO).
  cbn [sought] in M. apply text_matches_fixed in M; [|intros c Hc; apply cell_plain; auto].
  assert (G : exists g, i_to a = [g]) by (destruct EO; eauto). destruct G as (g & Eg). rewrite Eg in M.
  exists full, a, g, rest'. split; [exact F|]. split; [exact M|]. split; [exact Eg|]. unfold offer. cbn [resolved_new r_length r_output sought given]. rewrite Eg.
  split; [reflexivity|]. split; [reflexivity|]. intros p. unfold punc_ok. cbn [r_origin resolved_new]. rewrite O.
  destruct (un_rules _ _ _ _ _ U _ Hr) as [X|[(s & X)|[(C & c0 & ->)|[(k' & ->)| ->]]]]; try reflexivity; destruct r; try discriminate X; reflexivity.
Qed.
Lemma offer_exists g rest prev : In g input -> exists u, by_text src (g :: rest) prev u.
Proof.
  intros I. assert (Q : exists a, In a entries /\ i_to a = [g] /\ plain_entry a).
  { destruct (good_cell g I) as [G|[G|(k & c & r & Hr & X)]]; [apply sign_entry; auto|apply sign_entry; auto|].
    destruct (char_entry r k c g Hr X) as (a & IA & Ea & P). exists a. split; [|auto]. unfold main_entries. apply in_or_app. rewrite !in_flat_map.
    destruct IA as [[IA _]|IA]; eauto. }
  destruct Q as (a & Ia & Ea & P1 & P2). destruct (some_in_force true (trie_ctx Backward x) Backward entries a) as (full & b & IF & Ib & (RV & RV1 & RV2)).
  { intros b Hb. apply (main_oriented Backward x table b Hb). }
  { exact Ia. }
  exists (offer (trie_ctx Backward x) Backward full b), full, b. split; [exact IF|]. split; [|reflexivity].
  cbn [sought] in RV. rewrite P1 in RV1. rewrite P2 in RV2. assert (Z1 : pre_conditions b = []) by (inversion RV1; auto). assert (Z2 : post_conditions b = []) by (inversion RV2; auto).
  exists rest. rewrite Z1, Z2. cbn [sought]. rewrite <- RV, Ea. split; [|split; intros ks []].
  apply text_matches_same; [|reflexivity]. intros c [<-|[]]. apply cell_plain, I.
Qed.
Lemma cell_steps ts : derivation src Backward lim input ts ->
  reached ts = length ts /\ forall i h u, nth_error ts i = Some (h, u) -> h = ByRule /\ r_length u = 1 /\
    exists a, nth_error l i = Some a /\ r_output u = ac_raw a.
Proof.
  induction 1 as [|ts [h u] D IH Bst].
  - split; [reflexivity|]. intros i h u H. destruct i; discriminate.
  - destruct IH as [RR IH].
    assert (NI : inserted ts = []).
    { assert (SZ : Forall (fun y => fst y = ByRule /\ 0 < r_length (snd y)) ts).
      { apply Forall_forall. intros [h' u'] Hy. apply In_nth_error in Hy. destruct Hy as (i & Hy). destruct (IH _ _ _ Hy) as (-> & L & _). cbn. split; [reflexivity|lia]. }
      clear - SZ. unfold inserted. assert (G : forall acc, acc = [] -> fold_left insert_step ts acc = []); [|apply G; reflexivity].
      induction SZ as [|[h t] ts (A & P) F IH]; intros acc ->; [reflexivity|]. cbn [fold_left]. apply IH. cbn in A, P. subst h. cbn [insert_step].
      destruct (Nat.eqb_spec (r_length t) 0); [lia|reflexivity]. }
    assert (In2 : forall c, In c (left input ts) -> In c input) by (intros c Hc; unfold left in Hc; rewrite <- (firstn_skipn (reached ts) input); apply in_or_app; auto).
    assert (AVO : forall v, available src Backward lim input ts v -> exists c r, left input ts = c :: r).
    { intros v H. unfold available in H. destruct (flag_at k_comp6 lim (reached ts)); [destruct (no_comp6 _ _ _ _ _ _ U _ _ _ _ H)|].
      destruct H as (_ & [(_ & _ & c & r & E & _)|(O & _)]); [eauto|]. destruct O as [O|[(O & _)|(b' & c' & v' & _ & O & _)]];
        [|exfalso; eapply (no_found _ _ _ _ _ _ U), O|exfalso; eapply (no_found _ _ _ _ _ _ U), O].
      destruct (offered _ _ _ In2 O) as (_ & _ & g & rest & _ & E & _). eauto. }
    assert (LF : exists g rest, left input ts = g :: rest).
    { destruct h; cbn [best] in Bst.
      - exfalso. destruct Bst as ((H & _) & _). eapply (no_nocross _ _ _ _ _ _ U), H.
      - apply (AVO u), Bst.
      - destruct Bst as ((c & r & E & _) & _). eauto. }
    destruct LF as (g & rest & LF). pose proof LF as LF'. unfold left in LF'. apply skipn_head in LF'. destruct LF' as [LF' _].
    rewrite RR in LF'. pose proof (map_nth_error ac_cell) as _. rewrite nth_error_map in LF'. destruct (nth_error l (length ts)) as [a|] eqn:Ea; [|discriminate LF']. injection LF' as Eg.
    assert (Ig : In g input) by (apply In2; rewrite LF; left; reflexivity).
    destruct (flags _ _ Ea) as (F1 & F2 & F3 & F4 & F5). rewrite <- RR in F1, F2, F3, F4, F5.
    destruct (reads_right _ _ _ RD) as [FR _]. rewrite Forall_forall in FR. assert (RA : right a) by (apply FR; eapply nth_error_In, Ea). clear FR.
    assert (UN : forall v, available src Backward lim input ts v -> r_length v = 1 /\ r_output v = ac_raw a).
    { intros v H. unfold available in H. rewrite F1 in H. destruct H as (_ & [(_ & DF & c & r & E & AD)|(O & _ & ND)]).
      - rewrite LF in E. injection E as <- <-. cbn [as_digit rule_sources] in AD. destruct (digit_read _ _ AD) as (L & c & HC & ->). split; [exact L|].
        rewrite F3 in DF. destruct RA as [(DG & _)|(k & c' & KD & HC' & ->)]; [congruence|]. apply KD in DF. subst k.
        rewrite Eg in HC'. destruct (cell_shared _ _ _ _ _ U _ _ _ _ _ HC HC') as [->|[[Q _]|[_ Q]]]; [reflexivity|discriminate Q|discriminate Q].
      - destruct O as [O|[(O & _)|(b' & c' & v' & _ & O & _)]];
          [|exfalso; eapply (no_found _ _ _ _ _ _ U), O|exfalso; eapply (no_found _ _ _ _ _ _ U), O].
        destruct (offered _ _ _ In2 O) as (full & e & g' & rest' & IF & E & Ee & L & Ov & _). rewrite LF in E. injection E as <- <-. split; [exact L|]. rewrite Ov.
        destruct (in_force_cell _ _ _ IF Ee) as [IS IC]. destruct RA as [(_ & G & ->)|(k & c & KD & HC & ->)]; [apply IS; rewrite <- Eg; exact G|].
        rewrite Eg in HC. apply (IC k c HC). intros -> c' HL. destruct (digit_exists _ _ HC (ex_intro (fun z => has_cell ALetter z g) c' HL)) as (w & Hw).
        apply ND; [|exact L]. exists w. split; [reflexivity|]. split; [rewrite F3; apply KD; reflexivity|]. exists g, rest. split; [exact LF|exact Hw]. }
    assert (EV : exists v, available src Backward lim input ts v).
    { destruct (offer_exists g rest (previous ts) Ig) as (v & Hv).
      destruct (flag_at k_digit lim (reached ts)) eqn:DF.
      - destruct (assoc g (digit_table Backward table)) as [w|] eqn:AD.
        + exists w. unfold available. rewrite F1. split; [congruence|]. left. split; [reflexivity|]. split; [exact DF|]. exists g, rest. auto.
        + exists v. unfold available. rewrite F1. split; [congruence|]. right. split; [left; rewrite LF; exact Hv|]. split.
          * assert (Hv2 : by_text src (left input ts) (previous ts) v) by (rewrite LF; exact Hv). destruct (offered _ _ _ In2 Hv2) as (_ & _ & _ & _ & _ & _ & _ & _ & _ & P). apply P.
          * intros (w & _ & _ & c & r & E & AD'). rewrite LF in E. injection E as <- <-. cbn [as_digit rule_sources] in AD'. congruence.
      - exists v. unfold available. rewrite F1. split; [congruence|]. right. split; [left; rewrite LF; exact Hv|]. split.
        * assert (Hv2 : by_text src (left input ts) (previous ts) v) by (rewrite LF; exact Hv). destruct (offered _ _ _ In2 Hv2) as (_ & _ & _ & _ & _ & _ & _ & _ & _ & P). apply P.
        * intros (w & _ & X & _). congruence. }
    assert (Q : h = ByRule /\ available src Backward lim input ts u).
    { destruct h; cbn [best] in Bst.
      - exfalso. destruct Bst as ((H & _) & _). eapply (no_nocross _ _ _ _ _ _ U), H.
      - split; [reflexivity|]. apply Bst.
      - exfalso. destruct EV as (v & Hv). destruct Bst as (_ & NN & _). apply (NN v Hv). unfold new. rewrite NI. intros []. }
    destruct Q as [-> Hu]. destruct (UN u Hu) as [L O]. split.
    + rewrite reached_app, reached_one, app_length. cbn [snd length]. lia.
    + intros i h' u' H. destruct (Nat.lt_ge_cases i (length ts)) as [Lt|Lt].
      * rewrite nth_error_app1 in H by exact Lt. eapply IH, H.
      * rewrite nth_error_app2 in H by exact Lt. destruct (i - length ts) as [|n] eqn:En; [|destruct n; discriminate H].
        injection H as <- <-. replace i with (length ts) by lia. split; [reflexivity|]. split; [exact L|]. eauto.
Qed.
End Limits.
Lemma no_scanner d t (mm : main_table) : main_built is_alphabetic true read_dictionary d t table mm -> mt_scanner mm = None.
Proof.
  intros B'. rewrite (mb_scanner _ _ _ _ _ _ _ B'). unfold build_scanner.
  assert (E : compbrl_triggers table = []); [|rewrite E; reflexivity].
  destruct (compbrl_triggers table) as [|k t'] eqn:E; [reflexivity|]. exfalso.
  assert (I : In k (compbrl_triggers table)) by (rewrite E; left; reflexivity). unfold compbrl_triggers in I. apply in_flat_map in I.
  destruct I as (r & Hr & I). destruct (un_rules _ _ _ _ _ U _ Hr) as [X|[(s & X)|[(C & c0 & ->)|[(k' & ->)| ->]]]]; try (destruct I; fail); destruct r; try destruct I; discriminate.
Qed.
Lemma backward_text out : main_trace lower upper sort m input [] = Ok out -> flat_map r_output out = text.
Proof.
  intros E. destruct (pass_traced _ _ _ _ _ _ lower upper sort m B DR input [] out SR E) as (sp & em & caps & ind & lim & ts & T).
  assert (sp = []) as ->.
  { pose proof (tc_spans _ _ _ _ _ _ _ _ _ _ _ _ _ _ _ _ _ _ _ T) as SP. unfold enriched in SP. rewrite (no_scanner _ _ _ B) in SP. congruence. }
  pose proof (restricted _ _ _ _ _ _ _ _ _ _ B _ _ _ _ _ _ _ _ _ T) as R.
  destruct (cell_steps lim R ts) as [RT CS]; [apply T|]. rewrite (tc_out _ _ _ _ _ _ _ _ _ _ _ _ _ _ _ _ _ _ _ T).
  destruct (reads_right _ _ _ RD) as (_ & CA & TX).
  assert (SG : forall p, In p (stops 0 ts) -> flat_map r_output (nth p ind []) = []).
  { intros p Hp. destruct (signs_cells _ _ _ _ _ _ _ _ _ _ _ U EX B DR SR input out [] em caps ind lim ts E T p Hp) as (nn & cc & -> & _ & N & _ & C).
    rewrite N, C; [reflexivity|apply no_capital_at|]. intros [X _]. exact (no_digit_at _ X). }
  assert (LL : length ts = length l).
  { destruct (tc_end _ _ _ _ _ _ _ _ _ _ _ _ _ _ _ _ _ _ _ T) as (EN & _). rewrite RT in EN. rewrite EN. apply map_length. }
  assert (G : forall ts2 ts1 l1 l2, ts = ts1 ++ ts2 -> l = l1 ++ l2 -> length ts1 = length l1 -> reached ts1 = length ts1 ->
    flat_map r_output (written upper Backward lim ind (length ts1) true ts2) = flat_map ac_out l2).
  { induction ts2 as [|[h u] ts2 IH]; intros ts1 l1 l2 Et El En Er.
    - assert (l2 = []) as -> by (apply length_zero_iff_nil; rewrite Et, El, !app_length in LL; cbn [length] in LL; lia).
      cbn [written flat_map]. rewrite app_nil_r. apply SG. apply stops_spec. exists ts1, []. split; [exact Et|]. cbn. congruence.
    - destruct l2 as [|a l2]; [exfalso; rewrite Et, El, !app_length in LL; cbn [length] in LL; lia|].
      assert (NT : nth_error ts (length ts1) = Some (h, u)) by (rewrite Et, nth_error_app2, Nat.sub_diag by lia; reflexivity).
      assert (NL : nth_error l (length ts1) = Some a) by (rewrite El, En, nth_error_app2, Nat.sub_diag by lia; reflexivity).
      destruct (CS _ _ _ NT) as (-> & LU & a' & Ea & OU). assert (a' = a) as -> by congruence.
      cbn [written snd]. rewrite flat_map_app, SG by (apply stops_spec; exists ts1, ((ByRule, u) :: ts2); split; [exact Et|cbn; congruence]).
      cbn [app flat_map]. rewrite LU. change (Nat.ltb 0 1) with true.
      specialize (IH (ts1 ++ [(ByRule, u)]) (l1 ++ [a]) l2). rewrite !app_length, reached_app, reached_one in IH. cbn [length snd] in IH.
      rewrite IH; [|rewrite <- app_assoc; exact Et|rewrite <- app_assoc; exact El|lia|lia]. f_equal.
      destruct (flags lim R _ _ NL) as (_ & _ & _ & F4 & F5). cbn [shown]. unfold cased. rewrite F4, F5.
      rewrite Forall_forall in CA. destruct (CA a) as [C1 C2]; [eapply nth_error_In, NL|].
      destruct (ac_title a); [|rewrite OU; symmetry; apply C1; reflexivity]. destruct (C2 eq_refl) as (c & Ec & Eu). cbn [with_output r_output].
      rewrite OU, Ec, app_nil_r. exact Eu. }
  etransitivity; [|exact TX]. apply (G ts [] [] l); reflexivity.
Qed.
End Back.
