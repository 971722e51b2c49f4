(** The parser of table lines reads exactly the rules that are written ([written],
    LineSpec.v). *)
From Coq Require Import Strings.String ZArith.
From Coq Require Import List.
From Verif Require Import Base BaseProofs RuleModel BrailleModel BrailleProofs OperandModel OperandProofs OperandProofs2
  UnescapeSpec UnescapeProofs OperandSpec OperandText PropOperand ParserModel LineSpec.

(** ** Operands *)
Lemma rbind_parsed {A B} (p : parser A) (f : A -> parser B) ts b rest :
  rbind p f ts = Parsed b rest <-> exists a mid, p ts = Parsed a mid /\ f a mid = Parsed b rest.
Proof.
  unfold rbind. destruct (p ts) as [a mid|e|]; split; try discriminate; try (intros (? & ? & ? & ?); discriminate).
  - intros H. exists a, mid. auto.
  - intros (a' & m' & [= <- <-] & H). exact H.
Qed.
Lemma token_parsed e ts t rest : p_token e ts = Parsed t rest <-> ts = t :: rest.
Proof. unfold p_token. destruct ts; split; intros H; try discriminate; injection H as -> ->; reflexivity. Qed.
Lemma operand_parsed {A} e (f : str -> pr A) t ts a rest :
  p_operand e f t ts = Parsed a rest <-> rest = ts /\ exists r, f t = Good a r.
Proof.
  unfold p_operand. destruct (f t) as [a' r| |]; split; intros H; try discriminate; try (destruct H as (_ & r' & H); discriminate).
  - injection H as -> ->. eauto.
  - destruct H as (-> & r' & [= -> ->]). reflexivity.
Qed.
Lemma unescape_good t s : (exists r, unescape EscDefault t = Good s r) <-> Escaped false true t s.
Proof.
  rewrite <- (C35_decoding_exact EscDefault t s). split; [|intros H; eexists; exact H].
  intros (r & H). pose proof (unescape_rest _ _ _ _ H) as ->. exact H.
Qed.
Lemma alphanumeric_ok c : is_ascii_alphanumeric c = true <-> alphanumeric c.
Proof.
  unfold is_ascii_alphanumeric, is_ascii_alphabetic, is_ascii_digit, alphanumeric.
  rewrite !orb_true_iff, !andb_true_iff, !N.leb_le. intuition.
Qed.
Lemma name_ok ts t rest : p_name ts = Parsed t rest <-> reads (Name t) ts rest.
Proof.
  unfold p_name. rewrite rbind_parsed. split.
  - intros (u & mid & T & H). apply token_parsed in T. subst. destruct (forallb is_ascii_alphanumeric u) eqn:E; [|discriminate].
    injection H as -> ->. constructor. rewrite forallb_forall in E. apply Forall_forall. intros c I. apply alphanumeric_ok, E, I.
  - intros H. inversion H as [| |? ? F| | | | | | | | | | | | | | | | |]; subst. exists t, rest. split; [apply token_parsed; reflexivity|].
    replace (forallb is_ascii_alphanumeric t) with true; [reflexivity|]. symmetry. apply forallb_forall.
    rewrite Forall_forall in F. intros c I. apply alphanumeric_ok, F, I.
Qed.
Lemma names_ok ts l rest : p_many_names ts = Parsed l rest <-> reads (Names l) ts rest.
Proof.
  unfold p_many_names. split.
  - destruct (Nat.ltb_spec 1 (length ts)); [|discriminate]. intros [= <- <-]. constructor. lia.
  - intros H. inversion H; subst. match goal with |- context [Nat.ltb 1 (length ?x)] => destruct (Nat.ltb_spec 1 (length x)); [reflexivity|lia] end.
Qed.
Lemma char_ok ts c rest : p_one_char ts = Parsed c rest <-> reads (Char c) ts rest.
Proof.
  unfold p_one_char. rewrite rbind_parsed. split.
  - intros (t & mid & T & H). apply token_parsed in T. subst. apply rbind_parsed in H. destruct H as (s & m & H1 & H2).
    apply operand_parsed in H1. destruct H1 as (-> & H1). apply unescape_good in H1.
    destruct s as [|x [|y s]]; try discriminate. injection H2 as -> ->. constructor. exact H1.
  - intros H. inversion H; subst. eexists _, rest. split; [apply token_parsed; reflexivity|]. apply rbind_parsed.
    exists [c], rest. split; [|reflexivity]. apply operand_parsed. split; [reflexivity|]. apply unescape_good. assumption.
Qed.
Lemma text_ok ts s rest : p_chars ts = Parsed s rest <-> reads (Text s) ts rest.
Proof.
  unfold p_chars. rewrite rbind_parsed. split.
  - intros (t & mid & T & H). apply token_parsed in T. subst. apply operand_parsed in H. destruct H as (-> & H). apply unescape_good in H. constructor. exact H.
  - intros H. inversion H; subst. eexists _, rest. split; [apply token_parsed; reflexivity|]. apply operand_parsed. split; [reflexivity|].
    apply unescape_good. assumption.
Qed.
Lemma file_ok ts s rest : p_filename ts = Parsed s rest <-> reads (File s) ts rest.
Proof.
  unfold p_filename. rewrite token_parsed. split; [intros ->; constructor|intros H; inversion H; subst; reflexivity].
Qed.
Lemma maybe_ok ts s rest : p_maybe_chars ts = Parsed s rest <-> reads (Maybe s) ts rest.
Proof.
  unfold p_maybe_chars. split.
  - destruct ts; intros [= <- <-]; constructor.
  - intros H; inversion H; subst; reflexivity.
Qed.
Lemma place_ok ts p rest : p_position ts = Parsed p rest <-> reads (Place p) ts rest.
Proof.
  unfold p_position. split.
  - destruct ts as [|t ts]; [discriminate|]. destruct (str_eqb t (lit "before")) eqn:E1; [apply str_eqb_eq in E1; subst|].
    + intros [= <- <-]. constructor.
    + destruct (str_eqb t (lit "after")) eqn:E2; [apply str_eqb_eq in E2; subst|discriminate]. intros [= <- <-]. constructor.
  - intros H; inversion H; subst; reflexivity.
Qed.
Lemma digits_ok l : forallb is_ascii_digit l = true <-> Forall (fun c => 48 <= c /\ c <= 57)%N l.
Proof.
  rewrite forallb_forall, Forall_forall. unfold is_ascii_digit. split; intros H c I; specialize (H c I);
    rewrite andb_true_iff, !N.leb_le in *; exact H.
Qed.
Lemma value_ok l : forall a, fold_left (fun acc c => acc * 10 + (c - 48))%N l a = fold_left (fun v c => 10 * v + (c - 48))%N l a.
Proof. induction l as [|c l IH]; intros a; [reflexivity|]. cbn [fold_left]. rewrite IH. f_equal. lia. Qed.
Lemma number_ok ts z rest : p_number ts = Parsed z rest <-> reads (Number z) ts rest.
Proof.
  assert (D : forall l v, match l with [] => None | _ => if forallb is_ascii_digit l then Some (Z.of_N (fold_left (fun acc c => acc * 10 + (c - 48))%N l 0%N)) else None end = Some v
    <-> exists n, decimal l n /\ v = Z.of_N n).
  { intros l v. unfold decimal. destruct l as [|c l]; [split; [discriminate|intros (n & (H & _) & _); destruct (H eq_refl)]|].
    remember (c :: l) as L eqn:EL. split.
    - destruct (forallb is_ascii_digit L) eqn:E; [|discriminate]. intros [= <-]. eexists. split; [|reflexivity].
      split; [subst; discriminate|]. split; [apply digits_ok, E|]. apply value_ok.
    - intros (n & (_ & F & ->) & ->). apply digits_ok in F. rewrite F, value_ok. reflexivity. }
  assert (I : forall t, parse_i32 t = Some z <-> spells_number t z).
  { intros t. unfold parse_i32, spells_number. cbv zeta.
    destruct t as [|c r]; [split; [discriminate|]; intros (_ & n & [((H & _) & _)|[(t' & H & _)|(t' & H & _)]]); solve [destruct (H eq_refl) | discriminate H]|].
    assert (Sg : forall l n, decimal (c :: l) n -> c <> 43%N /\ c <> 45%N).
    { intros l n (_ & F & _). inversion F; subst. unfold digit10 in *. lia. }
    assert (R : forall v, (if ((-2147483648 <=? v) && (v <=? 2147483647))%Z%bool then Some v else None) = Some z <-> v = z /\ (-2147483648 <= z <= 2147483647)%Z).
    { intros v. destruct ((-2147483648 <=? v) && (v <=? 2147483647))%Z%bool eqn:E; [rewrite andb_true_iff, !Z.leb_le in E|rewrite andb_false_iff, !Z.leb_gt in E];
        (split; [intros H; try discriminate; injection H as <-; lia|intros (-> & H); try reflexivity; exfalso; lia]). }
    destruct (N.eqb_spec c 43) as [E43|E43]; [|destruct (N.eqb_spec c 45) as [E45|E45]]; split.
    - match goal with |- context [match ?x with Some v => _ | None => None end = _] => destruct x as [v|] eqn:E; [|discriminate] end.
      intros H. apply R in H. destruct H as [-> H]. split; [exact H|]. apply D in E. destruct E as (n & Dn & ->). exists n. right. left. exists r. subst. auto.
    - intros (B & n & [(Dn & _)|[(t' & E & Dn & Ez)|(t' & E & _)]]).
      + destruct (Sg _ _ Dn); congruence.
      + injection E as _ <-. rewrite (proj2 (D r (Z.of_N n))) by eauto. apply R. auto.
      + subst; discriminate.
    - match goal with |- context [match ?x with Some v => _ | None => None end = _] => destruct x as [v|] eqn:E; [|discriminate] end.
      intros H. apply R in H. destruct H as [<- H]. split; [exact H|]. apply D in E. destruct E as (n & Dn & ->). exists n. right. right. exists r. subst. auto.
    - intros (B & n & [(Dn & _)|[(t' & E & _)|(t' & E & Dn & Ez)]]).
      + destruct (Sg _ _ Dn); congruence.
      + subst; discriminate.
      + injection E as _ <-. rewrite (proj2 (D r (Z.of_N n))) by eauto. apply R. auto.
    - destruct (forallb is_ascii_digit (c :: r)) eqn:E; [|discriminate]. intros H. apply R in H. destruct H as [<- H]. split; [exact H|].
      eexists. left. split; [|reflexivity]. split; [discriminate|]. split; [apply digits_ok, E|apply value_ok].
    - intros (B & n & [(Dn & Ez)|[(t' & E & _)|(t' & E & _)]]); try congruence.
      destruct Dn as (_ & F & ->). apply digits_ok in F. rewrite F, value_ok. apply R. auto. }
  unfold p_number. rewrite rbind_parsed. split.
  - intros (t & mid & T & H). apply token_parsed in T. subst. destruct (parse_i32 t) as [v|] eqn:E; [|discriminate]. injection H as -> ->.
    constructor. apply I, E.
  - intros H; inversion H; subst. eexists _, rest. split; [apply token_parsed; reflexivity|]. rewrite (proj2 (I _)) by eassumption. reflexivity.
Qed.
Lemma cell_ok t ts u rest : p_cell t ts = Parsed u rest <-> rest = ts /\ spells_cell t u.
Proof.
  unfold p_cell, spells_cell. split.
  - destruct (cell_of_str t) as [c|] eqn:E; [|discriminate]. apply cell_of_str_ok in E. destruct E as (ds & N & F & ->).
    destruct (to_unicode (cell_of ds)) as [u'| |] eqn:U; try discriminate. intros [= -> ->]. split; [reflexivity|]. exists ds. auto.
  - intros (-> & ds & N & F & U). rewrite (proj2 (cell_of_str_ok t (cell_of ds))) by eauto. rewrite U. reflexivity.
Qed.
Lemma cells_ok t ts us rest : p_cells t ts = Parsed us rest <-> rest = ts /\ spells_cells t us.
Proof.
  rewrite <- cells_spec. unfold p_cells. split.
  - destruct (cells_of_str t) as [cs|]; [|discriminate]. destruct (cells_to_string cs) as [s| |] eqn:T; try discriminate.
    intros [= -> ->]. split; [reflexivity|]. exists cs. auto.
  - intros (-> & cs & -> & ->). reflexivity.
Qed.
Lemma each_ok {A B} (f : A -> parser B) (P : A -> B -> Prop) l ts bs rest :
  (forall a ts b rest, In a l -> f a ts = Parsed b rest <-> rest = ts /\ P a b) ->
  p_each f l ts = Parsed bs rest <-> rest = ts /\ Forall2 P l bs.
Proof.
  intros HP. revert bs; induction l as [|a l IH]; intros bs; cbn [p_each].
  - split; [intros [= <- <-]; split; [reflexivity|constructor]|intros (-> & F); inversion F; reflexivity].
  - rewrite rbind_parsed. split.
    + intros (b & mid & H1 & H2). apply HP in H1; [|left; reflexivity]. destruct H1 as [-> H1]. apply rbind_parsed in H2.
      destruct H2 as (bs' & m & H2 & [= <- <-]). apply IH in H2; [|intros; apply HP; right; assumption]. destruct H2 as [-> H2].
      split; [reflexivity|constructor; auto].
    + intros (-> & F). inversion F as [|? b ? bs' Pb F']; subst. exists b, ts. split; [apply HP; [left; reflexivity|auto]|].
      apply rbind_parsed. exists bs', ts. split; [|reflexivity]. apply IH; [intros; apply HP; right; assumption|auto].
Qed.
Lemma explicit_ok ts us rest : p_explicit_dots ts = Parsed us rest <-> reads (Cells us) ts rest.
Proof.
  unfold p_explicit_dots. rewrite rbind_parsed. split.
  - intros (t & mid & T & H). apply token_parsed in T. subst. apply cells_ok in H. destruct H as (-> & H). constructor. exact H.
  - intros H; inversion H; subst. eexists _, rest. split; [apply token_parsed; reflexivity|]. apply cells_ok. auto.
Qed.
Lemma single_ok ts u rest : p_single_cell ts = Parsed u rest <-> reads (Cell u) ts rest.
Proof.
  unfold p_single_cell. rewrite rbind_parsed. split.
  - intros (t & mid & T & H). apply token_parsed in T. subst. apply cell_ok in H. destruct H as (-> & H). constructor. exact H.
  - intros H; inversion H; subst. eexists _, rest. split; [apply token_parsed; reflexivity|]. apply cell_ok. auto.
Qed.
Lemma spells_cells_not_eq us : ~ spells_cells (lit "=") us.
Proof.
  intros H. assert (P : p_cells (lit "=") [] = Parsed us []) by (apply cells_ok; auto). vm_compute in P. discriminate.
Qed.
Lemma dots_ok ts b rest : p_dots ts = Parsed b rest <-> reads (Dots b) ts rest.
Proof.
  unfold p_dots. rewrite rbind_parsed. split.
  - intros (t & mid & T & H). apply token_parsed in T. subst. destruct (str_eqb t (lit "=")) eqn:E.
    + apply str_eqb_eq in E. subst. injection H as <- <-. constructor.
    + apply rbind_parsed in H. destruct H as (s & m & H & [= <- <-]). apply cells_ok in H. destruct H as (-> & H). constructor. exact H.
  - intros H; inversion H as [| | | | | | | | | | | |us t ? Sp|? | | | | | |]; subst.
    + exists t, rest. split; [apply token_parsed; reflexivity|]. destruct (str_eqb t (lit "=")) eqn:E.
      * apply str_eqb_eq in E. subst. destruct (spells_cells_not_eq _ Sp).
      * apply rbind_parsed. exists us, rest. split; [apply cells_ok; auto|reflexivity].
    + exists (lit "="), rest. split; [apply token_parsed; reflexivity|]. reflexivity.
Qed.
Lemma cells_no_comma t us : spells_cells t us -> ~ In 44%N t.
Proof.
  intros (parts & N & -> & F) I. destruct parts as [|p ps]; [congruence|]. clear N.
  unfold joins in I. revert p us F I. induction ps as [|q ps IH]; intros p us F I; inversion F as [|? u ? us' Sp F']; subst.
  - cbn in I. rewrite app_nil_r in I. pose proof (spells_cell_no _ _ _ Sp I). lia.
  - cbn in I. apply in_app_iff in I. destruct I as [I|[I|I]]; [pose proof (spells_cell_no _ _ _ Sp I); lia|discriminate|].
    apply (IH q us' F'). exact I.
Qed.
Lemma cells_list_ok ts uss rest : p_many_cells ts = Parsed uss rest <-> reads (CellsList uss) ts rest.
Proof.
  unfold p_many_cells. rewrite rbind_parsed. split.
  - intros (t & mid & T & H). apply token_parsed in T. subst.
    apply (each_ok _ spells_cells) in H; [|intros; apply cells_ok]. destruct H as (-> & F).
    destruct (joins_split 44%N t) as (parts & N & J & S). rewrite S in F. rewrite J. constructor; assumption.
  - intros H; inversion H as [| | | | | | | | | | | | | | |? parts ? N F| | | |]; subst. exists (joins 44%N parts), rest. split; [apply token_parsed; reflexivity|].
    apply (each_ok _ spells_cells); [intros; apply cells_ok|]. split; [reflexivity|]. destruct parts as [|p ps]; [congruence|].
    rewrite split_of_join; [exact F|]. assert (G : forall l uss, Forall2 spells_cells l uss -> Forall (fun q => ~ In 44%N q) l) by (clear; intros l uss F; induction F; constructor; auto; eapply cells_no_comma; eauto). exact (G _ _ F).
Qed.
Lemma cell_list_ok ts us rest : p_many_cell ts = Parsed us rest <-> reads (CellList us) ts rest.
Proof.
  assert (Q : forall a ts b rest, (if mem 45%N a then p_fail (ESingleCell a) else p_cell a) ts = Parsed b rest <-> rest = ts /\ spells_cell a b).
  { intros a ts' b rest'. destruct (mem 45%N a) eqn:E; [|apply cell_ok]. split; [discriminate|]. intros (_ & Sp).
    apply mem_In in E. pose proof (spells_cell_no _ _ _ Sp E). lia. }
  unfold p_many_cell. rewrite rbind_parsed. split.
  - intros (t & mid & T & H). apply token_parsed in T. subst.
    apply (each_ok _ spells_cell) in H; [|intros; apply Q]. destruct H as (-> & F).
    destruct (joins_split 44%N t) as (parts & N & J & S). rewrite S in F. rewrite J. constructor; assumption.
  - intros H; inversion H as [| | | | | | | | | | | | | |? parts ? N F| | | | |]; subst. exists (joins 44%N parts), rest. split; [apply token_parsed; reflexivity|].
    apply (each_ok _ spells_cell); [intros; apply Q|]. split; [reflexivity|]. destruct parts as [|p ps]; [congruence|].
    rewrite split_of_join; [exact F|]. apply (spells_parts_clean _ us); [lia|exact F].
Qed.
Lemma parse_tests_rest t l r : parse_tests t = Good l r -> r = [].
Proof.
  unfold parse_tests. destruct (p_many (2 * length t + 2) t) as [x y| |]; cbn [pbind]; try discriminate.
  destruct x; [discriminate|]. destruct y; [|discriminate]. intros [= <- <-]. reflexivity.
Qed.
Lemma parse_actions_rest t l r : parse_actions t = Good l r -> r = [].
Proof.
  unfold parse_actions. destruct (a_many (S (length t)) t) as [x y| |]; cbn [pbind]; try discriminate.
  destruct x; [discriminate|]. destruct y; [|discriminate]. intros [= <- <-]. reflexivity.
Qed.
Lemma tests_ok ts l rest : p_test_operand ts = Parsed l rest <-> reads (Tests l) ts rest.
Proof.
  unfold p_test_operand. rewrite rbind_parsed. split.
  - intros (t & mid & T & H). apply token_parsed in T. subst. apply operand_parsed in H. destruct H as (-> & r & H).
    pose proof (parse_tests_rest _ _ _ H). subst r. apply parse_tests_spec in H as [A B]. constructor; assumption.
  - intros H; inversion H; subst. eexists _, rest. split; [apply token_parsed; reflexivity|]. apply operand_parsed.
    split; [reflexivity|]. exists []. apply parse_tests_spec. auto.
Qed.
Lemma actions_ok ts l rest : p_action_operand ts = Parsed l rest <-> reads (Actions l) ts rest.
Proof.
  unfold p_action_operand. rewrite rbind_parsed. split.
  - intros (t & mid & T & H). apply token_parsed in T. subst. apply operand_parsed in H. destruct H as (-> & r & H).
    pose proof (parse_actions_rest _ _ _ H). subst r. apply parse_actions_spec in H as [A B]. constructor; assumption.
  - intros H; inversion H; subst. eexists _, rest. split; [apply token_parsed; reflexivity|]. apply operand_parsed.
    split; [reflexivity|]. exists []. apply parse_actions_spec. auto.
Qed.
Lemma pre_ok ts l rest : p_match SPre ts = Parsed l rest <-> reads (Pre l) ts rest.
Proof.
  unfold p_match. rewrite rbind_parsed. split.
  - intros (t & mid & T & H). apply token_parsed in T. subst. apply operand_parsed in H. destruct H as (-> & H).
    apply match_operand_spec in H as (s & A & B). econstructor; eauto.
  - intros H; inversion H; subst. eexists _, rest. split; [apply token_parsed; reflexivity|]. apply operand_parsed.
    split; [reflexivity|]. apply match_operand_spec. eauto.
Qed.
Lemma post_ok ts l rest : p_match SPost ts = Parsed l rest <-> reads (Post l) ts rest.
Proof.
  unfold p_match. rewrite rbind_parsed. split.
  - intros (t & mid & T & H). apply token_parsed in T. subst. apply operand_parsed in H. destruct H as (-> & H).
    apply match_operand_spec in H as (s & A & B). econstructor; eauto.
  - intros H; inversion H; subst. eexists _, rest. split; [apply token_parsed; reflexivity|]. apply operand_parsed.
    split; [reflexivity|]. apply match_operand_spec. eauto.
Qed.

(** ** Rules *)
Lemma check_ok e k op ts u rest : p_check e k op ts = Parsed u rest <-> rest = ts /\ is_subset k e = true.
Proof.
  unfold p_check. destruct u. destruct (is_subset k e); split; intros H; try discriminate; [injection H as <-; auto|destruct H as [-> _]; reflexivity|destruct H; discriminate].
Qed.
Lemma same_number_ok a b ts u rest : p_same_number a b ts = Parsed u rest <-> rest = ts /\ a = b.
Proof.
  unfold p_same_number. destruct u. destruct (Nat.eqb_spec a b); split; intros H; try discriminate; [injection H as <-; auto|destruct H as [-> _]; reflexivity|destruct H; congruence].
Qed.
Lemma subset_none k : is_subset k no_constraints = true <-> k = no_constraints.
Proof. destruct k as [[] [] []]; cbv; split; intros H; try reflexivity; try discriminate H. Qed.
Lemma subset_any k : is_subset k any_direction = true <-> nocross k = false.
Proof. destruct k as [[] [] []]; cbv; split; intros H; try reflexivity; try discriminate H. Qed.
Lemma in_names s l : existsb (str_eqb s) l = true -> In s l.
Proof. intros H. apply existsb_exists in H. destruct H as (x & I & E). apply str_eqb_eq in E. subst. exact I. Qed.

Ltac read_step H :=
  apply rbind_parsed in H; let a := fresh "v" in let m := fresh "m" in let H1 := fresh "P" in destruct H as (a & m & H1 & H);
  first [ apply check_ok in H1; destruct H1 as [-> H1] | apply same_number_ok in H1; destruct H1 as [-> H1]
        | apply char_ok in H1 | apply text_ok in H1 | apply name_ok in H1 | apply names_ok in H1 | apply file_ok in H1
        | apply maybe_ok in H1 | apply number_ok in H1 | apply place_ok in H1 | apply explicit_ok in H1 | apply single_ok in H1
        | apply dots_ok in H1 | apply cells_list_ok in H1 | apply cell_list_ok in H1 | apply tests_ok in H1 | apply actions_ok in H1
        | apply pre_ok in H1 | apply post_ok in H1 ].
Ltac permitted :=
  first [ left; apply in_names; vm_compute; reflexivity
        | match goal with H : is_subset _ any_direction = true |- _ => apply subset_any in H; right; left; split; [apply in_names; vm_compute; reflexivity|exact H] end
        | match goal with H : is_subset _ no_constraints = true |- _ => apply subset_none in H; right; right; exact H end ].
Lemma body_written k w op ts r rest : p_body k w op ts = Parsed r rest ->
  exists name items, lookup_opcode name opcode_table = Some op /\ spelling r = Some (name, items) /\
    reads_all items ts rest /\ balanced r /\ permits name k /\
    (rule_constraints r = Some k \/ rule_constraints r = None) /\ (rule_classes r = Some w \/ rule_classes r = None).
Proof.
  intros H. destruct op; cbn [p_body] in H; repeat read_step H;
    try (match type of H with (match ?d with _ => _ end) _ = _ => destruct d as [|x1 [|x2 [|x3 d]]]; try discriminate H end);
    injection H as <- <-;
    (eexists; eexists; split; [|split; [reflexivity|]];
    [vm_compute; reflexivity|
     split; [repeat (eapply ra_cons; [eassumption|]); apply ra_nil|];
     split; [cbn [balanced]; solve [assumption | exact Coq.Init.Logic.I]|];
     split; [permitted|split; cbn [rule_constraints rule_classes]; auto]]).
Qed.
Ltac read_goal :=
  apply rbind_parsed; eexists; eexists; split;
  [first [ match goal with C : forall ts, _ -> p_check no_constraints _ _ ts = _ |- _ => apply C; assumption end
         | match goal with C : forall ts, _ -> p_check any_direction _ _ ts = _ |- _ => apply C; assumption end
         | apply (proj2 (same_number_ok _ _ _ tt _)); split; [reflexivity|assumption]
         | apply char_ok; eassumption | apply text_ok; eassumption | apply name_ok; eassumption | apply names_ok; eassumption | apply file_ok; eassumption
         | apply maybe_ok; eassumption | apply number_ok; eassumption | apply place_ok; eassumption | apply explicit_ok; eassumption | apply single_ok; eassumption
         | apply dots_ok; eassumption | apply cells_list_ok; eassumption | apply cell_list_ok; eassumption | apply tests_ok; eassumption | apply actions_ok; eassumption
         | apply pre_ok; eassumption | apply post_ok; eassumption ]|].
Lemma body_reads k w op name items ts r rest : spelling r = Some (name, items) -> lookup_opcode name opcode_table = Some op ->
  reads_all items ts rest -> balanced r -> permits name k ->
  (rule_constraints r = Some k \/ rule_constraints r = None) -> (rule_classes r = Some w \/ rule_classes r = None) ->
  p_body k w op ts = Parsed r rest.
Proof.
  assert (C0 : forall ts, k = no_constraints -> p_check no_constraints k op ts = Parsed tt ts).
  { intros t E. apply check_ok. split; [reflexivity|]. apply subset_none, E. }
  assert (C1 : forall ts, nocross k = false -> p_check any_direction k op ts = Parsed tt ts).
  { intros t E. apply check_ok. split; [reflexivity|]. apply subset_any, E. }
  intros Sp L R B P KK W.
  assert (PP : existsb (str_eqb name) with_any_mark = true \/ (existsb (str_eqb name) with_direction = true /\ nocross k = false) \/ k = no_constraints).
  { destruct P as [P|[[P1 P2]|P]]; [left|right; left|right; right; exact P]; [|split; [|exact P2]]; apply existsb_exists; exists name; (split; [assumption|apply str_eqb_eq; reflexivity]). }
  clear P.
  destruct r; cbn [spelling] in Sp; try discriminate Sp; injection Sp as <- <-; vm_compute in L; injection L as <-;
    vm_compute in PP; cbn [balanced rule_constraints rule_classes] in *; cbn [p_body];
    try (destruct KK as [[= ->]|KK]; [|discriminate KK]); try (destruct W as [[= ->]|W]; [|discriminate W]);
    try (assert (NX : nocross k = false) by (destruct PP as [PP|[[PP1 PP2]|PP]]; [discriminate PP|exact PP2|rewrite PP; reflexivity]));
    try (assert (NC : k = no_constraints) by (destruct PP as [PP|[[PP1 PP2]|PP]]; [discriminate PP|discriminate PP1|exact PP]));
    repeat match goal with R : reads_all (_ :: _) _ _ |- _ => inversion R; clear R; subst end;
    repeat match goal with R : reads_all [] _ _ |- _ => inversion R; clear R; subst end;
    repeat read_goal; try reflexivity.
Qed.

(** ** Marks *)
Definition not_special (t : str) : bool :=
  negb (existsb (str_eqb t) [lit "nofor"; lit "noback"; lit "nocross"; lit "before"; lit "after"; lit "empmatchbefore"; lit "empmatchafter"]).
Lemma opcode_names name op : lookup_opcode name opcode_table = Some op -> not_special name = true.
Proof.
  assert (F : forallb (fun p => not_special (fst p)) opcode_table = true) by (vm_compute; reflexivity).
  revert F. generalize opcode_table. induction l as [|[n o] l IH]; intros F H; [discriminate|].
  cbn [forallb fst] in F. apply andb_true_iff in F. destruct F as [F1 F2]. cbn [lookup_opcode] in H.
  destruct (str_eqb name n) eqn:E; [apply str_eqb_eq in E; subst; exact F1|auto].
Qed.
(** the first word is none of these *)
Definition starts_free (l : list str) (ts : list str) : Prop := match ts with t :: _ => existsb (str_eqb t) l = false | [] => True end.
Lemma next_if_free s ts l : In s l -> starts_free l ts -> next_if s ts = (false, ts).
Proof.
  intros I F. destruct ts as [|t r]; [reflexivity|]. cbn [next_if starts_free] in *. destruct (str_eqb t s) eqn:E; [|reflexivity].
  exfalso. assert (existsb (str_eqb t) l = true) by (apply existsb_exists; eauto). congruence.
Qed.
Definition mark_names : list str := [lit "nofor"; lit "noback"; lit "nocross"].
Definition class_names : list str := [lit "before"; lit "after"].
Definition match_names : list str := [lit "empmatchbefore"; lit "empmatchafter"].
Lemma next_same s ts : next_if s (s :: ts) = (true, ts).
Proof. cbn [next_if]. rewrite (proj2 (str_eqb_eq s s) eq_refl). reflexivity. Qed.
Lemma next_other s t ts : str_eqb t s = false -> next_if s (t :: ts) = (false, t :: ts).
Proof. cbn [next_if]. intros ->. reflexivity. Qed.
Lemma constraints_read k ts : one_way k -> starts_free mark_names ts -> p_constraints (mark_words k ++ ts) = (k, ts).
Proof.
  intros O F. assert (N : forall s, In s mark_names -> next_if s ts = (false, ts)) by (intros s I; apply (next_if_free s ts mark_names I F)).
  pose proof (N (lit "nofor")) as N1. pose proof (N (lit "noback")) as N2. pose proof (N (lit "nocross")) as N3. clear N.
  specialize (N1 (or_introl eq_refl)). specialize (N2 (or_intror (or_introl eq_refl))). specialize (N3 (or_intror (or_intror (or_introl eq_refl)))).
  unfold p_constraints, mark_words. destruct k as [[] [] []]; cbn [nofor noback nocross app]; try (exfalso; apply O; split; reflexivity);
    repeat first [ rewrite next_same | rewrite N1 | rewrite N2 | rewrite N3 | rewrite next_other by (vm_compute; reflexivity) | progress cbn beta iota zeta ]; reflexivity.
Qed.
Lemma constraints_found ts k rest : p_constraints ts = (k, rest) -> ts = mark_words k ++ rest /\ one_way k.
Proof.
  assert (N : forall s ts b r, next_if s ts = (b, r) -> ts = (if b then [s] else []) ++ r).
  { intros s [|t l] b r; cbn [next_if]; [intros [= <- <-]; reflexivity|]. destruct (str_eqb t s) eqn:E.
    - apply str_eqb_eq in E. subst. intros [= <- <-]. reflexivity.
    - intros [= <- <-]. reflexivity. }
  unfold p_constraints, one_way, mark_words. destruct (next_if (lit "nofor") ts) as [f ts1] eqn:E1. destruct f.
  - destruct (next_if (lit "nocross") ts1) as [x ts3] eqn:E3. intros [= <- <-]. cbn [nofor noback nocross]. split; [|intros [_ H]; discriminate].
    rewrite (N _ _ _ _ E1), (N _ _ _ _ E3). destruct x; reflexivity.
  - destruct (next_if (lit "noback") ts1) as [b ts2] eqn:E2. destruct (next_if (lit "nocross") ts2) as [x ts3] eqn:E3.
    intros [= <- <-]. cbn [nofor noback nocross]. split; [|intros [H _]; discriminate].
    rewrite (N _ _ _ _ E1), (N _ _ _ _ E2), (N _ _ _ _ E3). destruct b, x; reflexivity.
Qed.
Lemma classes_read w ts : starts_free class_names ts -> p_with_classes (class_words w ++ ts) = (w, ts).
Proof.
  intros F. assert (C : p_classes (class_words w ++ ts) = (Some w, ts)).
  { induction w as [|c w IH].
    - cbn [class_words flat_map app]. destruct ts as [|t r]; [reflexivity|]. cbn [starts_free class_names existsb] in F.
      apply orb_false_iff in F. destruct F as [F1 F2]. apply orb_false_iff in F2. destruct F2 as [F2 _]. cbn [p_classes]. rewrite F1, F2. reflexivity.
    - unfold class_words in *. cbn [flat_map]. destruct c as [n|n]; cbn [app].
      + cbn [p_classes]. rewrite (proj2 (str_eqb_eq _ _) eq_refl). rewrite IH. reflexivity.
      + cbn [p_classes]. change (str_eqb (lit "after") (lit "before")) with false. cbn match.
        rewrite (proj2 (str_eqb_eq _ _) eq_refl). rewrite IH. reflexivity. }
  unfold p_with_classes. rewrite C. reflexivity.
Qed.
Lemma classes_found : forall n ts, length ts <= n ->
  match p_classes ts with
  | (Some w, rest) => ts = class_words w ++ rest
  | (None, rest) => rest = []
  end.
Proof.
  induction n as [|n IH]; intros ts L; [destruct ts; [reflexivity|cbn in L; lia]|].
  destruct ts as [|t r]; [reflexivity|]. cbn [p_classes length] in *.
  destruct (str_eqb t (lit "before")) eqn:E1; [apply str_eqb_eq in E1; subst t|].
  - destruct r as [|c r]; [reflexivity|]. cbn [length] in L. pose proof (IH r ltac:(lia)) as H. destruct (p_classes r) as [[w|] rest]; cbn [option_map]; [|exact H].
    rewrite H. reflexivity.
  - destruct (str_eqb t (lit "after")) eqn:E2; [apply str_eqb_eq in E2; subst t|reflexivity].
    destruct r as [|c r]; [reflexivity|]. cbn [length] in L. pose proof (IH r ltac:(lia)) as H. destruct (p_classes r) as [[w|] rest]; cbn [option_map]; [|exact H].
    rewrite H. reflexivity.
Qed.
Lemma matches_read m ts : match_words m -> starts_free match_names ts -> p_with_matches (m ++ ts) = ts.
Proof.
  intros M F. induction M as [|t m H _ IH].
  - cbn [app]. destruct ts as [|t r]; [reflexivity|]. cbn [starts_free match_names existsb] in F. rewrite orb_false_r in F. cbn [p_with_matches]. rewrite F. reflexivity.
  - cbn [app p_with_matches]. replace (str_eqb t (lit "empmatchbefore") || str_eqb t (lit "empmatchafter"))%bool with true; [exact IH|].
    symmetry. apply orb_true_iff. destruct H as [->| ->]; [left|right]; reflexivity.
Qed.
Lemma matches_found ts : exists m, ts = m ++ p_with_matches ts /\ match_words m.
Proof.
  induction ts as [|t r (m & E & M)]; [exists []; split; [reflexivity|constructor]|]. cbn [p_with_matches].
  destruct (str_eqb t (lit "empmatchbefore") || str_eqb t (lit "empmatchafter"))%bool eqn:H; [|exists []; split; [reflexivity|constructor]].
  exists (t :: m). split; [cbn [app]; rewrite <- E; reflexivity|]. constructor; [|exact M].
  apply orb_true_iff in H. destruct H as [H|H]; apply str_eqb_eq in H; auto.
Qed.
Lemma special_free name l rest : not_special name = true -> incl l (mark_names ++ class_names ++ match_names) -> starts_free l (name :: rest).
Proof.
  intros N I. cbn [starts_free]. destruct (existsb (str_eqb name) l) eqn:E; [|reflexivity]. exfalso.
  apply existsb_exists in E. destruct E as (x & Ix & E). unfold not_special in N. apply negb_true_iff in N.
  assert (existsb (str_eqb name) (mark_names ++ class_names ++ match_names) = true) by (apply existsb_exists; exists x; split; [apply I, Ix|exact E]).
  unfold mark_names, class_names, match_names in *. cbn [app] in *. congruence.
Qed.
(** the words in front of an opcode *)
Lemma front_read k w m name operands : one_way k -> match_words m -> not_special name = true ->
  p_constraints (mark_words k ++ class_words w ++ m ++ name :: operands) = (k, class_words w ++ m ++ name :: operands) /\
  p_with_classes (class_words w ++ m ++ name :: operands) = (w, m ++ name :: operands) /\
  p_with_matches (m ++ name :: operands) = name :: operands.
Proof.
  intros O M N.
  assert (A : forall l, incl l (mark_names ++ class_names ++ match_names) -> starts_free l (name :: operands)) by (intros l; apply special_free, N).
  split; [|split].
  - apply constraints_read; [exact O|]. destruct w as [|[c|c] w]; cbn [class_words flat_map app]; try (vm_compute; reflexivity).
    destruct M as [|t m [->| ->] M]; cbn [app]; try (vm_compute; reflexivity). apply A. intros s I. apply in_app_iff. left. exact I.
  - apply classes_read. destruct M as [|t m [->| ->] M]; cbn [app]; try (vm_compute; reflexivity). apply A.
    intros s I. apply in_app_iff. right. apply in_app_iff. left. exact I.
  - apply matches_read; [exact M|]. apply A. intros s I. apply in_app_iff. right. apply in_app_iff. right. exact I.
Qed.
Lemma spelling_opcode r name items : spelling r = Some (name, items) -> exists op, lookup_opcode name opcode_table = Some op.
Proof. destruct r; cbn [spelling]; intros H; try discriminate H; injection H as <- <-; eexists; vm_compute; reflexivity. Qed.
Theorem rule_written ts r rest : p_rule ts = Parsed r rest <-> written ts r rest.
Proof.
  unfold p_rule, written. split.
  - destruct (p_constraints ts) as [k ts1] eqn:E1. destruct (constraints_found _ _ _ E1) as [-> O].
    unfold p_with_classes. pose proof (classes_found _ ts1 (le_n _)) as C. destruct (p_classes ts1) as [[w|] ts2].
    + subst ts1. destruct (matches_found ts2) as (m & Em & M). intros H. apply rbind_parsed in H. destruct H as (op & mid & H1 & H2).
      unfold p_opcode in H1. apply rbind_parsed in H1. destruct H1 as (name & mid' & T & H1). apply token_parsed in T.
      destruct (lookup_opcode name opcode_table) as [op'|] eqn:L; [|discriminate]. injection H1 as -> ->.
      destruct (body_written _ _ _ _ _ _ H2) as (name' & items & L' & Sp & R & B & P & KK & W).
      assert (name' = name).
      { clear - L L'. revert L L'. assert (U : forallb (fun p => match lookup_opcode (fst p) opcode_table with Some _ => true | None => false end) opcode_table = true) by (vm_compute; reflexivity).
        assert (V : forall n n' o, lookup_opcode n opcode_table = Some o -> lookup_opcode n' opcode_table = Some o -> n' = n).
        { assert (D : forall n o, lookup_opcode n opcode_table = Some o -> In (n, o) opcode_table).
          { generalize opcode_table. induction l as [|[x y] l IH]; intros n o H; [discriminate|]. cbn [lookup_opcode] in H.
            destruct (str_eqb n x) eqn:E; [apply str_eqb_eq in E; subst; injection H as ->; left; reflexivity|right; auto]. }
          assert (ND : NoDup (map snd opcode_table)).
          { vm_compute. repeat (constructor; [intros H; repeat (destruct H as [H|H]; [discriminate H|]); destruct H|]). constructor. }
          intros n n' o H1 H2. apply D in H1. apply D in H2. clear - ND H1 H2. induction opcode_table as [|[x y] l IH]; [destruct H1|].
          inversion ND as [|? ? N1 N2]; subst. destruct H1 as [[= <- <-]|H1], H2 as [[= <-]|H2]; auto.
          - destruct N1. apply in_map_iff. exists (n', y). auto.
          - subst. destruct N1. apply in_map_iff. exists (n, o). auto. }
        intros L L'. exact (V _ _ _ L L'). }
      subst name'. exists k, w, m, name, items, mid. split; [rewrite Em, T; reflexivity|]. auto 9.
    + subst ts2. cbn [p_with_matches]. unfold rbind, p_opcode. cbn. discriminate.
  - intros (k & w & m & name & items & operands & -> & O & M & Sp & R & B & P & KK & W).
    destruct (spelling_opcode _ _ _ Sp) as [op L].
    destruct (front_read k w m name operands O M (opcode_names _ _ L)) as (F1 & F2 & F3). rewrite F1, F2, F3.
    apply rbind_parsed. exists op, operands. split.
    + unfold p_opcode. apply rbind_parsed. exists name, operands. split; [reflexivity|]. rewrite L. reflexivity.
    + eapply body_reads; eassumption.
Qed.
