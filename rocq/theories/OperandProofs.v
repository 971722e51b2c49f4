(** Proofs about the operand parsers. *)
From Verif Require Import Base BaseProofs RuleModel RegexpModel TableModel BrailleModel PatternModel OperandModel.

(** ** Induction over nested lists *)
Section TestInd.
Variable P : test_instr -> Prop.
Hypothesis H1 : forall n, P (TLookback n).
Hypothesis H2 : forall v o x, P (TVariable v o x).
Hypothesis H3 : forall s, P (TString s).
Hypothesis H4 : forall s, P (TDots s).
Hypothesis H5 : forall a q, P (TAttributes a q).
Hypothesis H6 : forall n q, P (TClass n q).
Hypothesis H7 : forall t, P t -> P (TNegate t).
Hypothesis H8 : forall ts, Forall P ts -> P (TReplace ts).
Hypothesis H9 : P TAtBeginning.
Hypothesis H10 : P TAtEnd.
Fixpoint test_ind' (t : test_instr) : P t :=
  match t with
  | TLookback n => H1 n
  | TVariable v o x => H2 v o x
  | TString s => H3 s
  | TDots s => H4 s
  | TAttributes a q => H5 a q
  | TClass n q => H6 n q
  | TNegate t' => H7 t' (test_ind' t')
  | TReplace ts => H8 ts ((fix go l : Forall P l :=
       match l with [] => Forall_nil _ | x :: r => Forall_cons _ (test_ind' x) (go r) end) ts)
  | TAtBeginning => H9
  | TAtEnd => H10
  end.
End TestInd.

Section PatInd.
Variable P : pattern -> Prop.
Hypothesis H1 : P PEmpty.
Hypothesis H2 : forall s, P (PCharacters s).
Hypothesis H3 : forall s, P (PBoundary s).
Hypothesis H4 : P PAny.
Hypothesis H5 : forall s, P (PSet s).
Hypothesis H6 : forall a, P (PAttributes a).
Hypothesis H7 : forall a s, P (PAttributesOrBoundary a s).
Hypothesis H8 : forall ps, Forall P ps -> P (PGroup ps).
Hypothesis H9 : forall p, P p -> P (PNegate p).
Hypothesis H10 : forall p, P p -> P (POptional p).
Hypothesis H11 : forall p, P p -> P (PZeroOrMore p).
Hypothesis H12 : forall p, P p -> P (POneOrMore p).
Hypothesis H13 : forall l r, Forall P l -> Forall P r -> P (PEither l r).
Fixpoint pat_ind' (p : pattern) : P p :=
  let go := fix go l : Forall P l :=
       match l with [] => Forall_nil _ | x :: r => Forall_cons _ (pat_ind' x) (go r) end in
  match p with
  | PEmpty => H1
  | PCharacters s => H2 s
  | PBoundary s => H3 s
  | PAny => H4
  | PSet s => H5 s
  | PAttributes a => H6 a
  | PAttributesOrBoundary a s => H7 a s
  | PGroup ps => H8 ps (go ps)
  | PNegate p' => H9 p' (pat_ind' p')
  | POptional p' => H10 p' (pat_ind' p')
  | PZeroOrMore p' => H11 p' (pat_ind' p')
  | POneOrMore p' => H12 p' (pat_ind' p')
  | PEither l r => H13 l r (go l) (go r)
  end.
End PatInd.

(** ** What is left after a successful parse is a suffix *)
Definition suffix_of (r s : str) : Prop := exists a, s = a ++ r.
Definition psuffix_of (r s : str) : Prop := exists a, a <> [] /\ s = a ++ r.

Lemma suffix_refl s : suffix_of s s.
Proof. exists []. reflexivity. Qed.
Lemma psuffix_suffix r s : psuffix_of r s -> suffix_of r s.
Proof. intros (a & _ & E). exists a. exact E. Qed.
Lemma suffix_trans a b c : suffix_of a b -> suffix_of b c -> suffix_of a c.
Proof. intros (x & ->) (y & ->). exists (y ++ x). apply app_assoc. Qed.
Lemma psuffix_trans_l a b c : psuffix_of a b -> suffix_of b c -> psuffix_of a c.
Proof.
  intros (x & N & ->) (y & ->). exists (y ++ x). split; [|apply app_assoc].
  destruct y; [exact N|discriminate].
Qed.
Lemma psuffix_trans_r a b c : suffix_of a b -> psuffix_of b c -> psuffix_of a c.
Proof.
  intros (x & ->) (y & N & ->). exists (y ++ x). split; [|apply app_assoc].
  destruct y; [congruence|discriminate].
Qed.
Lemma psuffix_cons c s : psuffix_of s (c :: s).
Proof. exists [c]. split; [discriminate|reflexivity]. Qed.
Lemma suffix_length r s : suffix_of r s -> length r <= length s.
Proof. intros (a & ->). rewrite app_length. lia. Qed.
Lemma psuffix_length r s : psuffix_of r s -> length r < length s.
Proof. intros (a & N & ->). rewrite app_length. destruct a; [congruence|simpl; lia]. Qed.

Lemma take_while_app p s a b : take_while p s = (a, b) -> s = a ++ b.
Proof.
  revert a b. induction s as [|c r IH]; simpl; intros a b.
  - intros [= <- <-]. reflexivity.
  - destruct (p c).
    + destruct (take_while p r) as [x y]. intros [= <- <-]. simpl. f_equal. apply IH. reflexivity.
    + intros [= <- <-]. reflexivity.
Qed.
Lemma take_while_suffix p s a b : take_while p s = (a, b) -> suffix_of b s.
Proof. intros H. exists a. eapply take_while_app, H. Qed.

Lemma consume_good e s u r : consume e s = Good u r -> s = e :: r.
Proof.
  unfold consume. destruct s as [|c s]; [discriminate|]. destruct (N.eqb_spec c e); [|discriminate].
  intros [= <- <-]. subst. reflexivity.
Qed.
Lemma consume_fuel e s : consume e s <> NoFuel.
Proof. unfold consume. destruct s as [|c s]; [discriminate|]. destruct (N.eqb c e); discriminate. Qed.

(** [psuffix_ok x s]: [x] is not out of fuel and leaves a proper suffix of [s]. *)
Definition leaves {A} (x : pr A) (s : str) : Prop :=
  x <> NoFuel /\ forall a r, x = Good a r -> psuffix_of r s.
Definition leaves' {A} (x : pr A) (s : str) : Prop :=
  x <> NoFuel /\ forall a r, x = Good a r -> suffix_of r s.

Lemma leaves_bind {A B} (x : pr A) (f : A -> str -> pr B) s :
  leaves x s -> (forall a r, x = Good a r -> leaves' (f a r) r) -> leaves (pbind x f) s.
Proof.
  intros [N H] F. destruct x as [a r| |]; simpl.
  - specialize (F a r eq_refl). destruct F as [F1 F2]. split; [exact F1|].
    intros b r' E. eapply psuffix_trans_r; [apply (F2 _ _ E)|apply (H a r eq_refl)].
  - split; discriminate.
  - congruence.
Qed.
Lemma leaves'_bind {A B} (x : pr A) (f : A -> str -> pr B) s :
  leaves' x s -> (forall a r, x = Good a r -> leaves' (f a r) r) -> leaves' (pbind x f) s.
Proof.
  intros [N H] F. destruct x as [a r| |]; simpl.
  - specialize (F a r eq_refl). destruct F as [F1 F2]. split; [exact F1|].
    intros b r' E. eapply suffix_trans; [apply (F2 _ _ E)|apply (H a r eq_refl)].
  - split; discriminate.
  - congruence.
Qed.
Lemma leaves_weak {A} (x : pr A) s : leaves x s -> leaves' x s.
Proof. intros [N H]. split; [exact N|]. intros a r E. apply psuffix_suffix, (H a r E). Qed.
Lemma leaves'_Good {A} (a : A) s r : suffix_of r s -> leaves' (Good a r) s.
Proof. intros H. split; [discriminate|]. intros b r' [= <- <-]. exact H. Qed.
Lemma leaves_Good {A} (a : A) s r : psuffix_of r s -> leaves (Good a r) s.
Proof. intros H. split; [discriminate|]. intros b r' [= <- <-]. exact H. Qed.
Lemma leaves_Bad {A} s : leaves (@Bad A) s.
Proof. split; discriminate. Qed.
Lemma leaves'_Bad {A} s : leaves' (@Bad A) s.
Proof. split; discriminate. Qed.
Global Hint Resolve leaves_Bad leaves'_Bad suffix_refl psuffix_cons : leaves.

Lemma consume_leaves e s : leaves (consume e s) s.
Proof.
  split; [apply consume_fuel|]. intros a r H. apply consume_good in H. subst. apply psuffix_cons.
Qed.
Lemma ascii_number_leaves s : leaves (ascii_number s) s.
Proof.
  unfold ascii_number. destruct (take_while is_ascii_digit s) as [d r] eqn:E.
  destruct (parse_u8 d) eqn:Ed; [|apply leaves_Bad]. apply leaves_Good.
  exists d. split; [|eapply take_while_app, E]. intros ->. discriminate.
Qed.
Lemma skipn_suffix n (s : str) : suffix_of (skipn n s) s.
Proof. exists (firstn n s). symmetry. apply firstn_skipn. Qed.
Lemma mp_unescape_leaves n s : leaves' (mp_unescape_unicode n s) s.
Proof.
  unfold mp_unescape_unicode. destruct (Nat.ltb _ _); [apply leaves'_Bad|].
  destruct (from_radix16 _); [|apply leaves'_Bad]. destruct (char_from_u32 _); [|apply leaves'_Bad].
  apply leaves'_Good, skipn_suffix.
Qed.
Lemma handle_escape_leaves c s : leaves' (handle_escape c s) s.
Proof.
  unfold handle_escape. destruct (negb _); [apply leaves'_Good, suffix_refl|].
  destruct s as [|e r]; [apply leaves'_Bad|].
  assert (S1 : suffix_of r (e :: r)) by (exists [e]; reflexivity).
  destruct (N.eqb e 115); [apply leaves'_Good, S1|].
  destruct (N.eqb e 34); [apply leaves'_Good, S1|].
  destruct (N.eqb e 120).
  { destruct (mp_unescape_leaves 4 r) as [A B]. split; [exact A|]. intros a r' E.
    eapply suffix_trans; [apply (B _ _ E)|exact S1]. }
  destruct (N.eqb e 121).
  { destruct (mp_unescape_leaves 5 r) as [A B]. split; [exact A|]. intros a r' E.
    eapply suffix_trans; [apply (B _ _ E)|exact S1]. }
  apply leaves'_Good, suffix_refl.
Qed.
Lemma string_body_leaves f s : length s < f -> leaves (string_body f s) s.
Proof.
  revert s. induction f as [|f IH]; intros s L; [lia|]. simpl.
  destruct s as [|c r]; [apply leaves_Bad|]. simpl in L.
  destruct (N.eqb c 34); [apply leaves_Good, psuffix_cons|].
  assert (X : leaves' (pdo x r1 <- handle_escape c r; pdo t r2 <- string_body f r1; Good (x :: t) r2) r).
  { apply leaves'_bind; [apply handle_escape_leaves|]. intros a r1 E.
    destruct (handle_escape_leaves c r) as [_ H]. specialize (H _ _ E). apply suffix_length in H.
    apply leaves_weak. apply leaves_bind; [apply IH; lia|]. intros. apply leaves'_Good, suffix_refl. }
  destruct X as [X1 X2]. split; [exact X1|]. intros a r' E.
  eapply psuffix_trans_r; [apply (X2 _ _ E)|apply psuffix_cons].
Qed.
Lemma quoted_leaves s : leaves (quoted s) s.
Proof.
  unfold quoted. apply leaves_bind; [apply consume_leaves|]. intros u r _.
  apply leaves_weak, string_body_leaves. lia.
Qed.
Lemma dots_leaves s : leaves (dots s) s.
Proof.
  unfold dots. apply leaves_bind; [apply consume_leaves|]. intros u r _.
  destruct (take_while _ r) as [d r'] eqn:E. destruct (cells_of_str d); [|apply leaves'_Bad].
  destruct (cells_to_string _); try apply leaves'_Bad. apply leaves'_Good.
  eapply take_while_suffix, E.
Qed.
Lemma maybe_quantifier_leaves s : leaves' (maybe_quantifier s) s.
Proof.
  unfold maybe_quantifier. destruct s as [|c r]; [apply leaves'_Good, suffix_refl|].
  destruct (N.eqb c 46); [apply leaves'_Good; exists [c]; reflexivity|].
  destruct (is_ascii_digit c); [|apply leaves'_Good, suffix_refl].
  apply leaves'_bind; [apply leaves_weak, ascii_number_leaves|]. intros m r1 _.
  destruct r1 as [|d r2]; [apply leaves'_Good, suffix_refl|].
  destruct (N.eqb d 45); [|apply leaves'_Good, suffix_refl].
  assert (X : leaves' (pdo n r3 <- ascii_number r2; if N.leb n m then Bad else Good (Some (QRange m n)) r3) r2).
  { apply leaves'_bind; [apply leaves_weak, ascii_number_leaves|]. intros n r3 _.
    destruct (N.leb n m); [apply leaves'_Bad|apply leaves'_Good, suffix_refl]. }
  destruct X as [X1 X2]. split; [exact X1|]. intros a r' E.
  eapply suffix_trans; [apply (X2 _ _ E)|exists [d]; reflexivity].
Qed.
Lemma p_class_leaves s : leaves (p_class s) s.
Proof.
  unfold p_class. apply leaves_bind; [apply consume_leaves|]. intros u r _.
  destruct r as [|c r1]; [apply leaves'_Bad|].
  destruct (N.leb 49 c && N.leb c 55)%bool; [apply leaves'_Good; exists [c]; reflexivity|].
  destruct (take_while is_ascii_alphabetic (c :: r1)) as [name r2] eqn:E.
  destruct name; [apply leaves'_Bad|].
  assert (X : leaves' (pdo q r3 <- maybe_quantifier r2; Good (TClass (n :: name) q) r3) r2).
  { apply leaves'_bind; [apply maybe_quantifier_leaves|]. intros. apply leaves'_Good, suffix_refl. }
  destruct X as [X1 X2]. split; [exact X1|]. intros a r' E'.
  eapply suffix_trans; [apply (X2 _ _ E')|eapply take_while_suffix, E].
Qed.
Lemma p_lookback_leaves s : leaves (p_lookback s) s.
Proof.
  unfold p_lookback. apply leaves_bind; [apply consume_leaves|]. intros u r _.
  destruct r as [|c r1]; [apply leaves'_Good, suffix_refl|].
  destruct (is_ascii_digit c); [|apply leaves'_Good, suffix_refl].
  apply leaves'_bind; [apply leaves_weak, ascii_number_leaves|]. intros. apply leaves'_Good, suffix_refl.
Qed.
Lemma attributes_body_suffix s l r : attributes_body s = (l, r) -> suffix_of r s.
Proof.
  revert l r. induction s as [|c s IH]; simpl; intros l r.
  - intros [= <- <-]. apply suffix_refl.
  - destruct (test_attribute c).
    + destruct (attributes_body s) as [x y] eqn:E. intros [= <- <-].
      eapply suffix_trans; [apply (IH _ _ eq_refl)|exists [c]; reflexivity].
    + intros [= <- <-]. apply suffix_refl.
Qed.
Lemma p_attributes_leaves s : leaves (p_attributes s) s.
Proof.
  unfold p_attributes. apply leaves_bind; [apply consume_leaves|]. intros u r _.
  destruct (attributes_body r) as [l r1] eqn:E. destruct l; [apply leaves'_Bad|].
  assert (X : leaves' (pdo q r2 <- maybe_quantifier r1; Good (TAttributes (a :: l) q) r2) r1).
  { apply leaves'_bind; [apply maybe_quantifier_leaves|]. intros. apply leaves'_Good, suffix_refl. }
  destruct X as [X1 X2]. split; [exact X1|]. intros b r' E'.
  eapply suffix_trans; [apply (X2 _ _ E')|eapply attributes_body_suffix, E].
Qed.
Lemma p_operator_leaves s : leaves (p_operator s) s.
Proof.
  unfold p_operator. destruct s as [|c r]; [apply leaves_Bad|].
  assert (D : forall d r1, r = d :: r1 -> psuffix_of r1 (c :: r)).
  { intros d r1 ->. exists [c; d]. split; [discriminate|reflexivity]. }
  destruct (N.eqb c 61); [apply leaves_Good, psuffix_cons|].
  destruct (N.eqb c 60).
  { destruct r as [|d r1]; [apply leaves_Bad|].
    destruct (N.eqb d 61); apply leaves_Good; [apply (D _ _ eq_refl)|apply psuffix_cons]. }
  destruct (N.eqb c 62); [|apply leaves_Bad].
  destruct r as [|d r1]; [apply leaves_Bad|].
  destruct (N.eqb d 61); apply leaves_Good; [apply (D _ _ eq_refl)|apply psuffix_cons].
Qed.
Lemma p_variable_leaves s : leaves (p_variable s) s.
Proof.
  unfold p_variable. apply leaves_bind; [apply consume_leaves|]. intros u r _.
  apply leaves'_bind; [apply leaves_weak, ascii_number_leaves|]. intros v r1 _.
  apply leaves'_bind; [apply leaves_weak, p_operator_leaves|]. intros o r2 _.
  apply leaves'_bind; [apply leaves_weak, ascii_number_leaves|]. intros. apply leaves'_Good, suffix_refl.
Qed.

Lemma p_leaves f :
  (forall s, 2 * length s + 1 <= f -> leaves (p_test f s) s) /\
  (forall s, 2 * length s + 2 <= f -> leaves' (p_many f s) s).
Proof.
  induction f as [|f [IT IM]]; [split; intros; lia|]. split.
  - intros s L. cbn [p_test]. destruct s as [|c r]; [apply leaves_Bad|].
    cbn [length] in L.
    destruct (N.eqb c 95); [apply p_lookback_leaves|].
    destruct (N.eqb c 37); [apply p_class_leaves|].
    destruct (N.eqb c 64).
    { apply leaves_bind; [apply dots_leaves|]. intros. apply leaves'_Good, suffix_refl. }
    destruct (N.eqb c 34).
    { apply leaves_bind; [apply quoted_leaves|]. intros. apply leaves'_Good, suffix_refl. }
    destruct (N.eqb c 36); [apply p_attributes_leaves|].
    destruct (N.eqb c 91).
    { match goal with |- leaves ?x _ => assert (X : leaves' x r) end.
      { apply leaves'_bind; [apply IM; lia|]. intros ts r1 _.
        apply leaves_weak, leaves_bind; [apply consume_leaves|]. intros. apply leaves'_Good, suffix_refl. }
      destruct X as [X1 X2]. split; [exact X1|]. intros a r' E.
      eapply psuffix_trans_r; [apply (X2 _ _ E)|apply psuffix_cons]. }
    destruct (N.eqb c 35); [apply p_variable_leaves|].
    destruct (N.eqb c 33).
    { match goal with |- leaves ?x _ => assert (X : leaves' x r) end.
      { apply leaves_weak, leaves_bind; [apply IT; lia|]. intros t r1 _.
        match goal with |- leaves' (if ?b then _ else _) _ => destruct b end;
          [apply leaves'_Bad|apply leaves'_Good, suffix_refl]. }
      destruct X as [X1 X2]. split; [exact X1|]. intros a r' E.
      eapply psuffix_trans_r; [apply (X2 _ _ E)|apply psuffix_cons]. }
    destruct (N.eqb c 96); [apply leaves_Good, psuffix_cons|].
    destruct (N.eqb c 126); [apply leaves_Good, psuffix_cons|apply leaves_Bad].
  - intros s L. cbn [p_many]. destruct s as [|c r]; [apply leaves'_Good, suffix_refl|].
    destruct (is_test c); [|apply leaves'_Good, suffix_refl].
    assert (T : leaves (p_test f (c :: r)) (c :: r)) by (apply IT; lia).
    apply leaves_weak, leaves_bind; [exact T|]. intros t r1 E.
    destruct T as [_ T]. specialize (T _ _ E). apply psuffix_length in T.
    apply leaves'_bind; [apply IM; lia|]. intros. apply leaves'_Good, suffix_refl.
Qed.

Lemma parse_tests_total s : parse_tests s <> NoFuel.
Proof.
  unfold parse_tests. pose proof (proj1 (proj2 (p_leaves (2 * length s + 2)) s (le_n _))) as F.
  destruct (p_many _ s) as [ts r| |]; simpl; try congruence.
  destruct ts, r; discriminate.
Qed.

(** ** Shape of accepted tests *)

(** [!] is never applied to a negation or a bracket. *)
Fixpoint wf_test (t : test_instr) : bool :=
  match t with
  | TNegate t' => negb (is_negate t') && negb (is_replace t') && wf_test t'
  | TReplace ts => forallb wf_test ts
  | _ => true
  end.
(** a variable comparison other than [=] occurs *)
Fixpoint has_comparison (t : test_instr) : bool :=
  match t with
  | TVariable _ OpEq _ => false
  | TVariable _ _ _ => true
  | TNegate t' => has_comparison t'
  | TReplace ts => existsb has_comparison ts
  | _ => false
  end.

Definition flat (t : test_instr) : bool :=
  match t with TNegate _ | TReplace _ => false | _ => true end.
Lemma pbind_Good {A B} (x : pr A) (f : A -> str -> pr B) b r' :
  pbind x f = Good b r' -> exists a r, x = Good a r /\ f a r = Good b r'.
Proof. destruct x; simpl; try discriminate. intros H. eauto. Qed.

Ltac pinv :=
  repeat match goal with
  | H : pbind _ _ = Good _ _ |- _ =>
      let a := fresh "a" in let r := fresh "r" in let E := fresh "E" in
      apply pbind_Good in H; destruct H as (a & r & E & H)
  | H : Good _ _ = Good _ _ |- _ => injection H as ? ?; subst
  | H : Bad = Good _ _ |- _ => discriminate
  | H : NoFuel = Good _ _ |- _ => discriminate
  end.

Lemma p_lookback_flat s t r : p_lookback s = Good t r -> flat t = true.
Proof.
  unfold p_lookback. intros H. pinv. destruct r0 as [|c r1]; pinv; [reflexivity|].
  destruct (is_ascii_digit c); pinv; reflexivity.
Qed.
Lemma p_class_flat s t r : p_class s = Good t r -> flat t = true.
Proof.
  unfold p_class. intros H. pinv. destruct r0 as [|c r1]; pinv.
  destruct (N.leb 49 c && N.leb c 55)%bool; pinv; [reflexivity|].
  destruct (take_while _ _) as [[|x n] r2]; pinv. reflexivity.
Qed.
Lemma p_attributes_flat s t r : p_attributes s = Good t r -> flat t = true.
Proof.
  unfold p_attributes. intros H. pinv. destruct (attributes_body _) as [[|x n] r2]; pinv. reflexivity.
Qed.
Lemma p_variable_flat s t r : p_variable s = Good t r -> flat t = true.
Proof. unfold p_variable. intros H. pinv. reflexivity. Qed.
Lemma flat_wf t : flat t = true -> wf_test t = true.
Proof. destruct t; try discriminate; reflexivity. Qed.

Lemma p_wf f :
  (forall s t r, p_test f s = Good t r -> wf_test t = true) /\
  (forall s ts r, p_many f s = Good ts r -> forallb wf_test ts = true).
Proof.
  induction f as [|f [IT IM]]; [split; discriminate|]. split.
  - intros s t r0 H. cbn [p_test] in H. destruct s as [|c r]; [discriminate|].
    destruct (N.eqb c 95); [eapply flat_wf, p_lookback_flat, H|].
    destruct (N.eqb c 37); [eapply flat_wf, p_class_flat, H|].
    destruct (N.eqb c 64); [pinv; reflexivity|].
    destruct (N.eqb c 34); [pinv; reflexivity|].
    destruct (N.eqb c 36); [eapply flat_wf, p_attributes_flat, H|].
    destruct (N.eqb c 91); [pinv; simpl; eapply IM; eassumption|].
    destruct (N.eqb c 35); [eapply flat_wf, p_variable_flat, H|].
    destruct (N.eqb c 33).
    { pinv. match type of H with (if ?b then _ else _) = _ => destruct b eqn:B end; pinv.
      apply orb_false_iff in B. destruct B as [B1 B2]. simpl. rewrite B1.
      replace (is_replace a) with false by (symmetry; exact B2). simpl. eapply IT; eassumption. }
    destruct (N.eqb c 96); [pinv; reflexivity|].
    destruct (N.eqb c 126); pinv; reflexivity.
  - intros s ts r0 H. cbn [p_many] in H. destruct s as [|c r]; [pinv; reflexivity|].
    destruct (is_test c); [|pinv; reflexivity]. pinv. simpl.
    rewrite (IT _ _ _ E), (IM _ _ _ E0). reflexivity.
Qed.
Lemma parse_tests_wf s ts r : parse_tests s = Good ts r -> forallb wf_test ts = true.
Proof.
  unfold parse_tests. intros H. pinv. destruct a as [|x l]; [discriminate|].
  destruct r0; [|discriminate]. pinv. eapply (proj2 (p_wf _)), E.
Qed.

(** ** Compilation of accepted tests *)
Lemma re_of_replace ctx ts :
  re_of_instr ctx (TReplace ts) =
  match re_of_all ctx ts with
  | Some [] => Some (RCapture REmpty)
  | Some (r :: rs) => Some (RCapture (concat_left r rs))
  | None => None
  end.
Proof.
  cbn [re_of_instr].
  match goal with |- match ?a ts with _ => _ end = _ => replace (a ts) with (re_of_all ctx ts) end.
  2:{ induction ts as [|x r IH]; [reflexivity|]. simpl. rewrite IH. reflexivity. }
  reflexivity.
Qed.

Lemma negate_quantified q cs : negate (quantified q (RClass cs)) <> None.
Proof. destruct q as [[n|m n|]|]; simpl; discriminate. Qed.

Lemma re_of_instr_none ctx t :
  wf_test t = true ->
  (re_of_instr ctx t = None <-> has_comparison t = true) /\
  (flat t = true -> forall r, re_of_instr ctx t = Some r -> negate r <> None).
Proof.
  induction t as [n|v o x|s|s|a q|n q|t IH|ts IH| |] using test_ind'; intros W;
    try (split; [split; discriminate|intros _ r [= <-]; try discriminate; try apply negate_quantified]).
  - split.
    + destruct o; simpl; split; congruence.
    + intros _ r. destruct o; simpl; try discriminate. intros [= <-]. discriminate.
  - split; [|discriminate]. cbn [wf_test] in W. apply andb_prop in W. destruct W as [W W3].
    apply andb_prop in W. destruct W as [W1 W2]. destruct (IH W3) as [I1 I2].
    cbn [re_of_instr has_comparison]. destruct (re_of_instr ctx t) as [r|] eqn:E.
    + split; [|intros H; apply I1 in H; discriminate].
      intros H. exfalso. apply (I2 ltac:(destruct t; try reflexivity; discriminate) r eq_refl H).
    + split; [intros _; apply I1; reflexivity|reflexivity].
  - split; [|discriminate]. rewrite re_of_replace. cbn [wf_test] in W. cbn [has_comparison].
    assert (X : re_of_all ctx ts = None <-> existsb has_comparison ts = true).
    { clear -IH W. induction IH as [|x l Hx _ IHl]; [simpl; split; discriminate|].
      simpl in W. apply andb_prop in W. destruct W as [W1 W2].
      destruct (Hx W1) as [I _]. specialize (IHl W2). simpl.
      destruct (re_of_instr ctx x) as [a|].
      - assert (has_comparison x = false) as ->.
        { destruct (has_comparison x); [|reflexivity]. destruct I as [_ I]. discriminate (I eq_refl). }
        simpl. destruct (re_of_all ctx l); [split; [discriminate|]|split; [intros _|reflexivity]].
        + intros H. apply IHl in H. discriminate.
        + apply IHl. reflexivity.
      - rewrite (proj1 I eq_refl). simpl. split; reflexivity. }
    destruct (re_of_all ctx ts) as [[|r rs]|]; [| |split; [intros _; apply X; reflexivity|reflexivity]];
      (split; [discriminate|intros H; apply X in H; discriminate]).
Qed.

Lemma re_of_all_none ctx ts :
  forallb wf_test ts = true -> (re_of_all ctx ts = None <-> existsb has_comparison ts = true).
Proof.
  intros W. pose proof (proj1 (re_of_instr_none ctx (TReplace ts) W)) as H.
  rewrite re_of_replace in H. cbn [has_comparison] in H. rewrite <- H.
  destruct (re_of_all ctx ts) as [[|r rs]|]; split; congruence.
Qed.
Lemma re_of_instrs_none ctx ts :
  forallb wf_test ts = true ->
  (re_of_instrs ctx (add_implicit_replace ts) = None <-> existsb has_comparison ts = true).
Proof.
  intros W. unfold add_implicit_replace. destruct (existsb is_replace ts) eqn:R.
  - unfold re_of_instrs. rewrite <- (re_of_all_none ctx ts W).
    destruct (re_of_all ctx ts) as [[|r rs]|]; split; congruence.
  - unfold re_of_instrs. cbn [re_of_all]. rewrite re_of_replace.
    rewrite <- (re_of_all_none ctx ts W).
    destruct (re_of_all ctx ts) as [[|r rs]|]; simpl; split; congruence.
Qed.

(** a comparison needs one of the characters [<] and [>] *)
Definition no_angle (s : str) : bool := forallb (fun c => negb (N.eqb c 60) && negb (N.eqb c 62))%bool s.
Lemma no_angle_suffix r s : suffix_of r s -> no_angle s = true -> no_angle r = true.
Proof. intros (a & ->). unfold no_angle. rewrite forallb_app. intros H. apply andb_prop in H. tauto. Qed.
Lemma p_operator_angle s o r : no_angle s = true -> p_operator s = Good o r -> o = OpEq.
Proof.
  unfold p_operator. destruct s as [|c s]; [discriminate|]. intros A H.
  simpl in A. apply andb_prop in A. destruct A as [A _]. apply andb_prop in A. destruct A as [A1 A2].
  apply negb_true_iff in A1, A2. rewrite A1, A2 in H. destruct (N.eqb c 61); [|discriminate].
  injection H as <- _. reflexivity.
Qed.
Lemma p_variable_cmp s t r : no_angle s = true -> p_variable s = Good t r -> has_comparison t = false.
Proof.
  unfold p_variable. intros A H. pinv. 
  assert (o : a1 = OpEq).
  { eapply p_operator_angle; [|exact E1]. eapply no_angle_suffix; [|exact A].
    pose proof (consume_leaves 35%N s) as [_ L]. specialize (L _ _ E).
    pose proof (ascii_number_leaves r0) as [_ L2]. specialize (L2 _ _ E0).
    eapply suffix_trans; [apply psuffix_suffix, L2|apply psuffix_suffix, L]. }
  subst. reflexivity.
Qed.
Lemma p_cmp f :
  (forall s t r, 2 * length s + 1 <= f -> no_angle s = true -> p_test f s = Good t r -> has_comparison t = false) /\
  (forall s ts r, 2 * length s + 2 <= f -> no_angle s = true -> p_many f s = Good ts r ->
     existsb has_comparison ts = false).
Proof.
  assert (F : forall t, flat t = true -> (forall v o x, t <> TVariable v o x) -> has_comparison t = false).
  { intros t. destruct t; try discriminate; try reflexivity. intros _ H. destruct (H var op operand eq_refl). }
  induction f as [|f [IT IM]]; [split; intros; lia|]. split.
  - intros s t r0 L A H. cbn [p_test] in H. destruct s as [|c r]; [discriminate|]. cbn [length] in L.
    assert (A' : no_angle r = true) by (eapply no_angle_suffix; [apply psuffix_suffix, psuffix_cons|exact A]).
    destruct (N.eqb c 95).
    { apply F; [eapply p_lookback_flat, H|]. intros v o x ->. unfold p_lookback in H. pinv.
      destruct r1 as [|d r1]; [discriminate|]. destruct (is_ascii_digit d); pinv; discriminate. }
    destruct (N.eqb c 37).
    { apply F; [eapply p_class_flat, H|]. intros v o x ->. unfold p_class in H. pinv.
      destruct r1 as [|d r1]; [discriminate|]. destruct (N.leb 49 d && N.leb d 55)%bool; [discriminate|].
      destruct (take_while _ _) as [[|y n] r2]; [discriminate|]. pinv. discriminate. }
    destruct (N.eqb c 64); [pinv; reflexivity|].
    destruct (N.eqb c 34); [pinv; reflexivity|].
    destruct (N.eqb c 36).
    { apply F; [eapply p_attributes_flat, H|]. intros v o x ->. unfold p_attributes in H. pinv.
      destruct (attributes_body _) as [[|y n] r2]; [discriminate|]. pinv. discriminate. }
    destruct (N.eqb c 91).
    { pinv. simpl. eapply IM; [| |eassumption]; [lia|exact A']. }
    destruct (N.eqb c 35); [eapply p_variable_cmp; [|exact H]; exact A|].
    destruct (N.eqb c 33).
    { pinv. match type of H with (if ?b then _ else _) = _ => destruct b eqn:B end; pinv.
      simpl. eapply IT; [| |eassumption]; [lia|exact A']. }
    destruct (N.eqb c 96); [pinv; reflexivity|].
    destruct (N.eqb c 126); pinv; reflexivity.
  - intros s ts r0 L A H. cbn [p_many] in H. destruct s as [|c r]; [pinv; reflexivity|].
    destruct (is_test c); [|pinv; reflexivity]. pinv. simpl.
    assert (L1 : 2 * length (c :: r) + 1 <= f) by (cbn [length] in *; lia).
    pose proof (proj1 (p_leaves f) _ L1) as [_ Lv]. specialize (Lv _ _ E).
    rewrite (IT _ _ _ L1 A E). simpl. eapply IM; [| |exact E0].
    + apply psuffix_length in Lv. lia.
    + eapply no_angle_suffix; [apply psuffix_suffix, Lv|exact A].
Qed.
Lemma parse_tests_cmp s ts r :
  no_angle s = true -> parse_tests s = Good ts r -> existsb has_comparison ts = false.
Proof.
  unfold parse_tests. intros A H. pinv. destruct a as [|x l]; [discriminate|].
  destruct r0; [|discriminate]. pinv. eapply (proj2 (p_cmp _)); [|exact A|exact E]. lia.
Qed.

(** ** Actions *)
Lemma a_variable_leaves s : leaves (a_variable s) s.
Proof.
  unfold a_variable. apply leaves_bind; [apply consume_leaves|]. intros u r _.
  apply leaves'_bind; [apply leaves_weak, ascii_number_leaves|]. intros v r1 _.
  destruct r1 as [|c r2]; [apply leaves'_Bad|].
  destruct (N.eqb c 61).
  { match goal with |- leaves' ?x _ => assert (X : leaves' x r2) end.
    { apply leaves'_bind; [apply leaves_weak, ascii_number_leaves|]. intros. apply leaves'_Good, suffix_refl. }
    destruct X as [X1 X2]. split; [exact X1|]. intros a r' E.
    eapply suffix_trans; [apply (X2 _ _ E)|exists [c]; reflexivity]. }
  destruct (N.eqb c 43); [apply leaves'_Good, suffix_refl|].
  destruct (N.eqb c 45); [apply leaves'_Good, suffix_refl|apply leaves'_Bad].
Qed.
Lemma a_class_leaves s : leaves (a_class s) s.
Proof.
  unfold a_class. apply leaves_bind; [apply consume_leaves|]. intros u r _.
  destruct (take_while _ r) as [n r1] eqn:E. destruct n; [apply leaves'_Bad|].
  apply leaves'_Good. eapply take_while_suffix, E.
Qed.
Lemma p_action_leaves s : leaves (p_action s) s.
Proof.
  unfold p_action. destruct s as [|c r]; [apply leaves_Bad|].
  destruct (N.eqb c 64).
  { apply leaves_bind; [apply dots_leaves|]. intros. apply leaves'_Good, suffix_refl. }
  destruct (N.eqb c 34).
  { apply leaves_bind; [apply quoted_leaves|]. intros. apply leaves'_Good, suffix_refl. }
  destruct (N.eqb c 42); [apply leaves_Good, psuffix_cons|].
  destruct (N.eqb c 63); [apply leaves_Good, psuffix_cons|].
  destruct (N.eqb c 35); [apply a_variable_leaves|].
  destruct (N.eqb c 37); [apply a_class_leaves|apply leaves_Bad].
Qed.
Lemma a_many_leaves f s : length s < f -> leaves' (a_many f s) s.
Proof.
  revert s. induction f as [|f IH]; intros s L; [lia|]. cbn [a_many].
  destruct s as [|c r]; [apply leaves'_Good, suffix_refl|].
  destruct (is_action c); [|apply leaves'_Good, suffix_refl].
  apply leaves_weak, leaves_bind; [apply p_action_leaves|]. intros t r1 E.
  pose proof (p_action_leaves (c :: r)) as [_ T]. specialize (T _ _ E). apply psuffix_length in T.
  apply leaves'_bind; [apply IH; lia|]. intros. apply leaves'_Good, suffix_refl.
Qed.
Lemma parse_actions_total s : parse_actions s <> NoFuel.
Proof.
  unfold parse_actions. pose proof (proj1 (a_many_leaves (S (length s)) s (le_n _))) as F.
  destruct (a_many _ s) as [ts r| |]; simpl; try congruence. destruct ts, r; discriminate.
Qed.

(** no accepted action increments or decrements a variable *)
Definition is_step (a : action_instr) : bool :=
  match a with ActIncrement _ | ActDecrement _ => true | _ => false end.
Lemma p_action_step s a r : p_action s = Good a r -> is_step a = true ->
  exists c r', r = c :: r' /\ is_action c = false.
Proof.
  unfold p_action. destruct s as [|c s]; [discriminate|]. intros H St.
  destruct (N.eqb c 64); [pinv; discriminate|].
  destruct (N.eqb c 34); [pinv; discriminate|].
  destruct (N.eqb c 42); [pinv; discriminate|].
  destruct (N.eqb c 63); [pinv; discriminate|].
  destruct (N.eqb c 35).
  { unfold a_variable in H. pinv. destruct r1 as [|d r2]; [discriminate|].
    destruct (N.eqb d 61); [pinv; discriminate|].
    destruct (N.eqb_spec d 43); [pinv; exists 43%N, r2; split; reflexivity|].
    destruct (N.eqb_spec d 45); [pinv; exists 45%N, r2; split; reflexivity|discriminate]. }
  destruct (N.eqb c 37); [|discriminate]. unfold a_class in H. pinv.
  destruct (take_while _ _) as [[|x n] r1]; pinv. discriminate.
Qed.
Lemma a_many_step f s ts r :
  a_many f s = Good ts r -> existsb is_step ts = true -> r <> [].
Proof.
  revert s ts. induction f as [|f IH]; [discriminate|]. intros s ts H St. cbn [a_many] in H.
  destruct s as [|c s]; [pinv; discriminate|]. destruct (is_action c); [|pinv; discriminate].
  pinv. simpl in St. destruct (is_step a) eqn:Sa.
  - destruct (p_action_step _ _ _ E Sa) as (d & r' & -> & D).
    destruct f as [|f]; [discriminate|]. cbn [a_many] in E0. rewrite D in E0. pinv. discriminate.
  - eapply IH; [exact E0|exact St].
Qed.
Lemma parse_actions_no_step s ts r : parse_actions s = Good ts r -> existsb is_step ts = false.
Proof.
  unfold parse_actions. intros H. pinv. destruct a as [|x l]; [discriminate|].
  destruct r0; [|discriminate]. pinv. destruct (existsb is_step (x :: l)) eqn:St; [|reflexivity].
  destruct (a_many_step _ _ _ _ E St eq_refl).
Qed.
