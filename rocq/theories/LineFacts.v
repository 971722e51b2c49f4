(** Facts about the parser of lines: it ends, unknown opcodes, marks that are not permitted,
    words after a rule. *)
From Coq Require Import Strings.String ZArith.
From Coq Require Import List.
From Verif Require Import Base BaseProofs RuleModel BrailleModel BrailleProofs OperandModel OperandProofs UnescapeSpec UnescapeProofs PropOperand ParserModel LineSpec LineProofs.

(** ** The parser ends *)
Definition ends {A} (p : parser A) : Prop := forall ts, p ts <> ParseNoFuel.
Lemma ends_return {A} (a : A) : ends (p_return a).
Proof. intros ts. discriminate. Qed.
Lemma ends_fail {A} e : ends (@p_fail A e).
Proof. intros ts. discriminate. Qed.
Lemma ends_bind {A B} (p : parser A) (f : A -> parser B) : ends p -> (forall a, ends (f a)) -> ends (rbind p f).
Proof. intros H1 H2 ts. unfold rbind. specialize (H1 ts). destruct (p ts) as [a r|e|]; [apply H2|discriminate|contradiction]. Qed.
Lemma ends_token e : ends (p_token e).
Proof. intros [|t ts]; discriminate. Qed.
Lemma ends_operand {A} e (f : str -> pr A) t : (forall s, f s <> NoFuel) -> ends (p_operand e f t).
Proof. intros H ts. unfold p_operand. specialize (H t). destruct (f t); [discriminate|discriminate|contradiction]. Qed.
Lemma ends_names : ends p_many_names.
Proof. intros ts. unfold p_many_names. destruct (Nat.ltb 1 (length ts)); discriminate. Qed.
Lemma ends_maybe : ends p_maybe_chars.
Proof. intros [|t ts]; discriminate. Qed.
Lemma ends_position : ends p_position.
Proof. intros [|t ts]; [discriminate|]. cbn. destruct (str_eqb t _); [discriminate|]. destruct (str_eqb t _); discriminate. Qed.
Lemma ends_cell s : ends (p_cell s).
Proof. intros ts. unfold p_cell. destruct (cell_of_str s); [destruct (to_unicode a)|]; discriminate. Qed.
Lemma ends_cells s : ends (p_cells s).
Proof. intros ts. unfold p_cells. destruct (cells_of_str s); [destruct (cells_to_string a)|]; discriminate. Qed.
Lemma ends_each {A B} (f : A -> parser B) : (forall a, ends (f a)) -> forall l, ends (p_each f l).
Proof. intros H. induction l as [|a l IH]; cbn [p_each]; [apply ends_return|]. apply ends_bind; [apply H|]. intros b. apply ends_bind; [exact IH|]. intros bs. apply ends_return. Qed.
Lemma ends_check e k op : ends (p_check e k op).
Proof. unfold p_check. destruct (is_subset k e); [apply ends_return|apply ends_fail]. Qed.
Lemma ends_same a b : ends (p_same_number a b).
Proof. unfold p_same_number. destruct (Nat.eqb a b); [apply ends_return|apply ends_fail]. Qed.
Ltac ending :=
  repeat first
    [ apply ends_return | apply ends_fail | apply ends_token | apply ends_names | apply ends_maybe | apply ends_position
    | apply ends_cell | apply ends_cells | apply ends_check | apply ends_same
    | apply ends_operand; first [apply unescape_total | apply parse_tests_total | apply parse_actions_total
                                | intros s; apply (proj2 (proj2 (C23_parsers_terminate _ s)))]
    | apply ends_each; intros ?
    | apply ends_bind; [|intros ?]
    | match goal with |- ends (match ?x with _ => _ end) => destruct x end
    | progress unfold p_opcode, p_name, p_one_char, p_number, p_chars, p_filename, p_dots, p_explicit_dots, p_many_cells,
        p_single_cell, p_many_cell, p_test_operand, p_action_operand, p_match ].
Lemma body_ends k w op : ends (p_body k w op).
Proof. destruct op; cbn [p_body]; ending. Qed.
Lemma rule_ends : ends p_rule.
Proof.
  intros ts. unfold p_rule. destruct (p_constraints ts) as [k ts1]. destruct (p_with_classes ts1) as [w ts2].
  apply (ends_bind p_opcode (p_body k w)); [ending|]. intros op. apply body_ends.
Qed.

(** ** Opcodes *)
Definition samples : list rule := [
  RInclude [];
  RUndefined [];
  RDisplay 0%N 0%N no_constraints;
  RMultind [] [] no_constraints;
  RSpace 0%N [] no_constraints;
  RPunctuation 0%N [] no_constraints;
  RDigit 0%N [] no_constraints;
  RGrouping [] [] 0%N 0%N;
  RLetter 0%N [] no_constraints;
  RBase [] 0%N 0%N;
  RLowercase 0%N [] no_constraints;
  RUppercase 0%N [] no_constraints;
  RLitdigit 0%N [] no_constraints;
  RSign 0%N [] no_constraints;
  RMath 0%N [] no_constraints;
  RModeletter [] [] no_constraints;
  RCapsletter [] no_constraints;
  RBegmodeword [] [] no_constraints;
  RBegcapsword [] no_constraints;
  REndcapsword [] no_constraints;
  RCapsmodechars [];
  RBegcaps [];
  REndcaps [];
  RBegcapsphrase [];
  REndcapsphrase [] PosBefore;
  RLencapsphrase 0%Z;
  RLetsign [];
  RNoletsign [];
  RNoletsignbefore [];
  RNoletsignafter [];
  RNocontractsign [] no_constraints;
  RNumsign [];
  RNonumsign [] no_constraints;
  RNumericnocontchars [];
  RNumericmodechars [];
  RMidendnumericmodechars [];
  RBegmodephrase [] [];
  REndmodephrase [] [] PosBefore;
  RLenmodephrase [] 0%Z;
  RSeqdelimiter [];
  RSeqbeforechars [];
  RSeqafterchars [];
  RSeqafterpattern [];
  RSeqafterexpression [];
  RClass [] [];
  REmphclass [];
  RBegemph [] [] no_constraints;
  REndemph [] [] no_constraints;
  RNoemphchars [] [];
  REmphletter [] [];
  RBegemphword [] [];
  REndemphword [] [];
  REmphmodechars [] [];
  RBegemphphrase [] [];
  REndemphphrase [] [] PosBefore;
  RLenemphphrase [] 0%Z;
  RBegcomp [] no_constraints;
  REndcomp [] no_constraints;
  RDecpoint 0%N [];
  RHyphen 0%N [] no_constraints;
  RCapsnocont;
  RCompbrl [] no_constraints;
  RComp6 [] Implicit;
  RNocont [];
  RReplace [] None;
  RAlways [] Implicit no_constraints [];
  RRepeated [] [] no_constraints;
  RRepword [] [];
  RRependword [] [] [];
  RLargesign [] [];
  RWord [] Implicit no_constraints [];
  RSyllable [] Implicit;
  RJoinword [] [];
  RLowword [] [] no_constraints;
  RContraction [];
  RSufword [] Implicit no_constraints [];
  RPrfword [] Implicit no_constraints [];
  RBegword [] Implicit no_constraints [];
  RBegmidword [] Implicit no_constraints [];
  RMidword [] Implicit no_constraints [];
  RMidendword [] Implicit no_constraints [];
  REndword [] Implicit no_constraints [];
  RPartword [] Implicit no_constraints [];
  RExactdots [];
  RPrepunc [] [] no_constraints;
  RPostpunc [] [] no_constraints;
  RBegnum [] [] no_constraints;
  RMidnum [] [] no_constraints;
  REndnum [] Implicit no_constraints;
  RJoinnum [] [] no_constraints;
  RSwapcd [] [] [];
  RSwapdd [] [] [];
  RSwapcc [] [] [];
  RAttribute [] [];
  RContext [] [] no_constraints;
  RPass2 [] [] no_constraints;
  RPass3 [] [] no_constraints;
  RPass4 [] [] no_constraints;
  RCorrect [] [] no_constraints;
  RMatch [] [] [] Implicit no_constraints;
  RLiteral []].
Lemma opcode_spelled name op : lookup_opcode name opcode_table = Some op -> exists r items, spelling r = Some (name, items).
Proof.
  assert (F : forallb (fun p => existsb (fun r => match spelling r with Some (n, _) => str_eqb n (fst p) | None => false end) samples) opcode_table = true) by (vm_compute; reflexivity).
  intros H. assert (I : In (name, op) opcode_table).
  { revert H. generalize opcode_table. induction l as [|[x y] l IH]; [discriminate|]. cbn [lookup_opcode].
    destruct (str_eqb name x) eqn:E; [apply str_eqb_eq in E; subst; intros [= ->]; left; reflexivity|right; auto]. }
  rewrite forallb_forall in F. specialize (F _ I). apply existsb_exists in F. destruct F as (r & _ & E). exists r.
  destruct (spelling r) as [[n items]|]; [|discriminate]. apply str_eqb_eq in E. subst. exists items. reflexivity.
Qed.
Lemma lookup_in name op : In (name, op) opcode_table -> lookup_opcode name opcode_table = Some op.
Proof. intros I. unfold opcode_table in I. repeat (destruct I as [I|I]; [injection I as <- <-; vm_compute; reflexivity|]); destruct I. Qed.
Lemma unknown_opcode k w m name operands : one_way k -> match_words m ->
  ~ In name [lit "nofor"; lit "noback"; lit "nocross"; lit "before"; lit "after"; lit "empmatchbefore"; lit "empmatchafter"] ->
  (forall r items, spelling r <> Some (name, items)) ->
  p_rule (mark_words k ++ class_words w ++ m ++ name :: operands) = Failed (EOpcode (Some name)).
Proof.
  intros O M N H. assert (NS : not_special name = true).
  { unfold not_special. apply negb_true_iff. destruct (existsb _ _) eqn:E; [|reflexivity]. destruct N.
    apply existsb_exists in E. destruct E as (x & I & E). apply str_eqb_eq in E. subst. exact I. }
  destruct (front_read k w m name operands O M NS) as (E1 & E2 & E3). unfold p_rule. rewrite E1, E2, E3.
  unfold rbind, p_opcode, p_token. cbn [rbind]. unfold rbind. destruct (lookup_opcode name opcode_table) as [op|] eqn:L; [|reflexivity].
  destruct (opcode_spelled _ _ L) as (r & items & E). destruct (H r items E).
Qed.

(** ** Marks that are not permitted *)
Definition only_permitted (name : str) (k : constraints) : constraints :=
  if existsb (str_eqb name) with_any_mark then no_constraints
  else if existsb (str_eqb name) with_direction then mk_constraints false false (nocross k)
  else k.
Lemma body_forbidden k w name op ts : In (name, op) opcode_table -> only_permitted name k <> no_constraints ->
  p_body k w op ts = Failed (EConstraints (only_permitted name k) op).
Proof.
  assert (F : forall e, is_subset k e = false -> p_check e k op ts = Failed (EConstraints (difference k e) op)) by (intros e; unfold p_check; intros ->; reflexivity).
  intros I. unfold opcode_table in I.
  repeat (destruct I as [I|I]; [injection I as <- <-|]); try (destruct I; fail);
    (match goal with |- context [only_permitted ?n k] => let v := eval vm_compute in (existsb (str_eqb n) with_any_mark) in let u := eval vm_compute in (existsb (str_eqb n) with_direction) in
       change (only_permitted n k) with (if v then no_constraints else if u then mk_constraints false false (nocross k) else k) end;
     cbv iota; intros H; try (destruct (H eq_refl); fail); cbn [p_body]; unfold rbind at 1; (rewrite F;
     [destruct k as [[] [] []]; cbn; reflexivity|destruct k as [[] [] []]; cbn in *; try reflexivity; destruct (H eq_refl)])).
Qed.
