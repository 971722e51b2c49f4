(** A pattern of a match rule cannot be compiled exactly when it has a double negation. *)
From Coq Require Import List.
From Verif Require Import Base BaseProofs RuleModel TableModel RegexpModel PatternModel OperandModel OperandProofs OperandProofs2
  LineSpec PipelineSpec FaultSpec.

(** ** Regular expressions that cannot be negated *)
Fixpoint blocked (r : regexp) : bool :=
  match r with
  | RLiteral _ | RNotClass _ | RCapture _ | RNotString _ | RCIString _ | RNotVarEq _ _ => true
  | RConcat a b | REither a b => blocked a || blocked b
  | ROptional a | RZeroOrMore a | ROneOrMore a | RRepeatExactly _ a | RRepeatAtLeast _ a
  | RRepeatAtLeastAtMost _ _ a | RGroup a => blocked a
  | _ => false
  end.
Fixpoint textual (r : regexp) : bool :=
  match r with
  | RClass _ | RString _ | RVarEq _ _ => true
  | RConcat a b | REither a b => textual a || textual b
  | ROptional a | RZeroOrMore a | ROneOrMore a | RRepeatExactly _ a | RRepeatAtLeast _ a
  | RRepeatAtLeastAtMost _ _ a | RGroup a => textual a
  | _ => false
  end.
Lemma negate_blocked r : (blocked r = true /\ negate r = None) \/
  (blocked r = false /\ exists r', negate r = Some r' /\ blocked r' = textual r /\ textual r' = false).
Proof.
  induction r; cbn [blocked textual negate];
    try (left; split; reflexivity); try (right; split; [reflexivity|]; eexists; split; [reflexivity|split; reflexivity]).
  1,2: destruct IHr1 as [[-> ->]|(-> & a' & -> & B1 & T1)]; [left; auto|];
    destruct IHr2 as [[-> ->]|(-> & b' & -> & B2 & T2)]; [left; auto|];
    right; split; [reflexivity|]; eexists; split; [reflexivity|]; cbn [blocked textual]; rewrite B1, B2, T1, T2; auto.
  all: destruct IHr as [[-> ->]|(-> & a' & -> & B & T)]; [left; auto|];
    right; split; [reflexivity|]; eexists; split; [reflexivity|]; cbn [blocked textual]; auto.
Qed.
Lemma concat_blocked rs : forall a, blocked (concat_left a rs) = (blocked a || existsb blocked rs)%bool /\
  textual (concat_left a rs) = (textual a || existsb textual rs)%bool.
Proof.
  induction rs as [|r rs IH]; intros a; cbn [concat_left existsb]; [rewrite !orb_false_r; auto|].
  destruct (IH (RConcat a r)) as [-> ->]. cbn [blocked textual]. rewrite !orb_assoc. auto.
Qed.

(** ** Patterns *)
Fixpoint mentions (p : pattern) : bool :=
  match p with
  | PCharacters _ | PSet _ | PAttributes _ | PAttributesOrBoundary _ _ => true
  | PGroup ps => existsb mentions ps
  | PNegate q | POptional q | PZeroOrMore q | POneOrMore q => mentions q
  | PEither l r => existsb mentions l || existsb mentions r
  | _ => false
  end.
Fixpoint negates_text (p : pattern) : bool :=
  match p with
  | PGroup ps => existsb negates_text ps
  | PNegate q => mentions q || negates_text q
  | POptional q | PZeroOrMore q | POneOrMore q => negates_text q
  | PEither l r => existsb negates_text l || existsb negates_text r
  | _ => false
  end.
Fixpoint doubled (p : pattern) : bool :=
  match p with
  | PGroup ps => existsb doubled ps
  | PNegate q => negates_text q || doubled q
  | POptional q | PZeroOrMore q | POneOrMore q => doubled q
  | PEither l r => existsb doubled l || existsb doubled r
  | _ => false
  end.

Definition exactly (ctx : classes) (p : pattern) : Prop :=
  (doubled p = true /\ re_of_pattern ctx p = None) \/
  (doubled p = false /\ exists r, re_of_pattern ctx p = Some r /\ blocked r = negates_text p /\
     (textual r || blocked r)%bool = mentions p).
Lemma list_exactly ctx ps : Forall (fun p => wf_pat p = true -> exactly ctx p) ps -> ps <> [] -> forallb wf_pat ps = true ->
  (existsb doubled ps = true /\ re_of_patterns ctx ps = None) \/
  (existsb doubled ps = false /\ exists r, re_of_patterns ctx ps = Some r /\ blocked r = existsb negates_text ps /\
     (textual r || blocked r)%bool = existsb mentions ps).
Proof.
  intros F NE W.
  assert (X : (existsb doubled ps = true /\ re_of_pattern_list ctx ps = None) \/
    (existsb doubled ps = false /\ exists rs, re_of_pattern_list ctx ps = Some rs /\ length rs = length ps /\
       existsb blocked rs = existsb negates_text ps /\ (existsb textual rs || existsb blocked rs)%bool = existsb mentions ps)).
  { clear NE. induction F as [|p ps H _ IH]; [right; split; [reflexivity|exists []; auto]|].
    cbn [forallb] in W. apply andb_prop in W. destruct W as [W1 W2]. cbn [existsb re_of_pattern_list].
    destruct (H W1) as [[D E]|(D & r & E & B & T)]; rewrite D, E; cbn [orb opt_map2]; [left; auto|].
    destruct (IH W2) as [[D' E']|(D' & rs & E' & L & B' & T')]; rewrite D', E'; cbn [opt_map2]; [left; auto|].
    right. split; [reflexivity|]. exists (r :: rs). split; [reflexivity|]. cbn [length existsb]. split; [lia|].
    rewrite <- B, <- B', <- T, <- T'. split; [reflexivity|].
    destruct (textual r), (blocked r), (existsb textual rs), (existsb blocked rs); reflexivity. }
  unfold re_of_patterns. destruct X as [[D E]|(D & rs & E & L & B & T)]; rewrite D, E; cbn [opt_bind]; [left; auto|]. right. split; [reflexivity|].
  destruct rs as [|r rs]; [destruct ps; [congruence|discriminate]|]. cbn [concat_nonempty]. exists (concat_left r rs). split; [reflexivity|].
  destruct (concat_blocked rs r) as [-> ->]. split; [exact B|]. rewrite <- T. cbn [existsb].
  destruct (textual r), (blocked r), (existsb textual rs), (existsb blocked rs); reflexivity.
Qed.
Lemma pattern_exactly ctx p : wf_pat p = true -> exactly ctx p.
Proof.
  induction p as [|s|sd|  |cs|a|a sd|ps IH|p IH|p IH|p IH|p IH|l r IHl IHr] using pat_ind'; intros W; unfold exactly;
    try (right; split; [reflexivity|]; eexists; split; [reflexivity|split; reflexivity]).
  - right. split; [reflexivity|]. eexists. split; [reflexivity|]. destruct sd; split; reflexivity.
  - cbn [re_of_pattern]. unfold re_of_attrs. cbn [wf_pat] in W. apply negb_true_iff in W. rewrite W.
    right. split; [reflexivity|]. eexists. split; [reflexivity|split; reflexivity].
  - cbn [re_of_pattern]. unfold re_of_attrs. cbn [wf_pat] in W. apply negb_true_iff in W. rewrite W.
    right. split; [reflexivity|]. eexists. split; [reflexivity|]. destruct sd; split; reflexivity.
  - rewrite re_of_group. cbn [wf_pat doubled negates_text mentions] in *. apply andb_prop in W. destruct W as [W1 W2].
    destruct (list_exactly ctx ps IH (length_neq0 _ W1) W2) as [[D E]|(D & r & E & B & T)]; rewrite D, E; cbn [option_map]; [left; auto|].
    right. split; [reflexivity|]. eexists. split; [reflexivity|]. cbn [blocked textual]. auto.
  - cbn [wf_pat re_of_pattern doubled negates_text mentions] in *. apply andb_prop in W. destruct W as [_ W].
    destruct (IH W) as [[D E]|(D & r & E & B & T)]; rewrite D, E; cbn [opt_bind]; [left; rewrite orb_true_r; auto|].
    rewrite orb_false_r, <- B, <- T. destruct (negate_blocked r) as [[-> ->]|(-> & r' & -> & B' & T')]; [left; auto|].
    right. split; [reflexivity|]. exists r'. split; [reflexivity|]. rewrite B', T'. rewrite orb_false_r, orb_false_r, orb_false_l. auto.
  - cbn [wf_pat re_of_pattern doubled negates_text mentions] in *.
    destruct (IH W) as [[D E]|(D & r & E & B & T)]; rewrite D, E; cbn [option_map]; [left; auto|].
    right. split; [reflexivity|]. eexists. split; [reflexivity|]. cbn [blocked textual]. auto.
  - cbn [wf_pat re_of_pattern doubled negates_text mentions] in *.
    destruct (IH W) as [[D E]|(D & r & E & B & T)]; rewrite D, E; cbn [option_map]; [left; auto|].
    right. split; [reflexivity|]. eexists. split; [reflexivity|]. cbn [blocked textual]. auto.
  - cbn [wf_pat re_of_pattern doubled negates_text mentions] in *.
    destruct (IH W) as [[D E]|(D & r & E & B & T)]; rewrite D, E; cbn [option_map]; [left; auto|].
    right. split; [reflexivity|]. eexists. split; [reflexivity|]. cbn [blocked textual]. auto.
  - rewrite re_of_either. cbn [wf_pat doubled negates_text mentions] in *.
    apply andb_prop in W. destruct W as [W W4]. apply andb_prop in W. destruct W as [W W3]. apply andb_prop in W. destruct W as [W1 W2].
    destruct (list_exactly ctx l IHl (length_neq0 _ W1) W2) as [[D E]|(D & a & E & B & T)]; rewrite D, E; cbn [opt_map2 orb]; [left; auto|].
    destruct (list_exactly ctx r IHr (length_neq0 _ W3) W4) as [[D' E']|(D' & b & E' & B' & T')]; rewrite D', E'; cbn [opt_map2]; [left; auto|].
    right. split; [reflexivity|]. eexists. split; [reflexivity|]. cbn [blocked textual]. rewrite <- B, <- B', <- T, <- T'. split; [reflexivity|].
    destruct (textual a), (blocked a), (textual b), (blocked b); reflexivity.
Qed.

(** ** The booleans say what FaultSpec.v says *)
Lemma in_part p q ps : In p ps -> part_of q p -> In p ps /\ part_of q p.
Proof. auto. Qed.
Lemma existsb_parts (f : pattern -> bool) (P : pattern -> Prop) ps : Forall (fun p => f p = true <-> P p) ps ->
  (existsb f ps = true <-> exists p, In p ps /\ P p).
Proof.
  intros F. rewrite existsb_exists. rewrite Forall_forall in F. split; intros (p & I & Q); exists p; (split; [exact I|]); apply (F p I), Q.
Qed.
Lemma mentions_ok p : mentions p = true <-> exists c, part_of c p /\ about_characters c.
Proof.
  assert (Y : forall p, about_characters p -> exists c, part_of c p /\ about_characters c).
  { intros q A. exists q. split; [constructor|exact A]. }
  induction p as [|s|sd|  |cs|a|a sd|ps IH|p IH|p IH|p IH|p IH|l r IHl IHr] using pat_ind'; cbn [mentions];
    try (split; [discriminate|intros (c & P & A); inversion P; subst; destruct A]);
    try (split; [intros _; apply Y; exact Coq.Init.Logic.I|reflexivity]).
  - rewrite (existsb_parts _ _ _ IH). split.
    + intros (p & I & c & P & A). exists c. split; [eapply po_group; eassumption|exact A].
    + intros (c & P & A). inversion P; subst; [destruct A|]. eauto.
  - rewrite IH. split; intros (c & P & A); [exists c; split; [constructor; exact P|exact A]|inversion P; subst; [destruct A|eauto]].
  - rewrite IH. split; intros (c & P & A); [exists c; split; [constructor; exact P|exact A]|inversion P; subst; [destruct A|eauto]].
  - rewrite IH. split; intros (c & P & A); [exists c; split; [constructor; exact P|exact A]|inversion P; subst; [destruct A|eauto]].
  - rewrite IH. split; intros (c & P & A); [exists c; split; [constructor; exact P|exact A]|inversion P; subst; [destruct A|eauto]].
  - rewrite orb_true_iff, (existsb_parts _ _ _ IHl), (existsb_parts _ _ _ IHr). split.
    + intros [(p & I & c & P & A)|(p & I & c & P & A)]; exists c; (split; [|exact A]); [eapply po_left|eapply po_right]; eassumption.
    + intros (c & P & A). inversion P; subst; [destruct A|left; eauto|right; eauto].
Qed.
Lemma negates_text_ok p : negates_text p = true <-> exists q c, part_of (PNegate q) p /\ part_of c q /\ about_characters c.
Proof.
  induction p as [|s|sd|  |cs|a|a sd|ps IH|p IH|p IH|p IH|p IH|l r IHl IHr] using pat_ind'; cbn [negates_text];
    try (split; [discriminate|intros (q & c & P & _); inversion P]).
  - rewrite (existsb_parts _ _ _ IH). split.
    + intros (p & I & q & c & P & A). exists q, c. split; [eapply po_group; eassumption|exact A].
    + intros (q & c & P & A). inversion P; subst. eauto 6.
  - rewrite orb_true_iff, IH, mentions_ok. split.
    + intros [(c & P & A)|(q & c & P & A)]; [exists p, c; split; [constructor|auto]|exists q, c; split; [constructor; exact P|exact A]].
    + intros (q & c & P & A). inversion P; subst; [left; exists c; exact A|right; eauto].
  - rewrite IH. split; intros (q & c & P & A); exists q, c; (split; [|exact A]); [constructor; exact P|inversion P; subst; assumption].
  - rewrite IH. split; intros (q & c & P & A); exists q, c; (split; [|exact A]); [constructor; exact P|inversion P; subst; assumption].
  - rewrite IH. split; intros (q & c & P & A); exists q, c; (split; [|exact A]); [constructor; exact P|inversion P; subst; assumption].
  - rewrite orb_true_iff, (existsb_parts _ _ _ IHl), (existsb_parts _ _ _ IHr). split.
    + intros [(p & I & q & c & P & A)|(p & I & q & c & P & A)]; exists q, c; (split; [|exact A]); [eapply po_left|eapply po_right]; eassumption.
    + intros (q & c & P & A). inversion P; subst; [left; eauto 8|right; eauto 8].
Qed.
Lemma doubled_ok p : doubled p = true <->
  exists outer inner c, part_of (PNegate outer) p /\ part_of (PNegate inner) outer /\ part_of c inner /\ about_characters c.
Proof.
  induction p as [|s|sd|  |cs|a|a sd|ps IH|p IH|p IH|p IH|p IH|l r IHl IHr] using pat_ind'; cbn [doubled];
    try (split; [discriminate|intros (o & i & c & P & _); inversion P]).
  - rewrite (existsb_parts _ _ _ IH). split.
    + intros (p & I & o & i & c & P & A). exists o, i, c. split; [eapply po_group; eassumption|exact A].
    + intros (o & i & c & P & A). inversion P; subst. eauto 8.
  - rewrite orb_true_iff, IH, negates_text_ok. split.
    + intros [(i & c & P & A)|(o & i & c & P & A)]; [exists p, i, c; split; [constructor|auto]|exists o, i, c; split; [constructor; exact P|exact A]].
    + intros (o & i & c & P & A). inversion P; subst; [left; exists i, c; exact A|right; eauto 6].
  - rewrite IH. split; intros (o & i & c & P & A); exists o, i, c; (split; [|exact A]); [constructor; exact P|inversion P; subst; assumption].
  - rewrite IH. split; intros (o & i & c & P & A); exists o, i, c; (split; [|exact A]); [constructor; exact P|inversion P; subst; assumption].
  - rewrite IH. split; intros (o & i & c & P & A); exists o, i, c; (split; [|exact A]); [constructor; exact P|inversion P; subst; assumption].
  - rewrite orb_true_iff, (existsb_parts _ _ _ IHl), (existsb_parts _ _ _ IHr). split.
    + intros [(p & I & o & i & c & P & A)|(p & I & o & i & c & P & A)]; exists o, i, c; (split; [|exact A]); [eapply po_left|eapply po_right]; eassumption.
    + intros (o & i & c & P & A). inversion P; subst; [left; eauto 8|right; eauto 8].
Qed.
Lemma doubled_all ps : existsb doubled ps = true <-> double_negation ps.
Proof.
  rewrite existsb_exists. unfold double_negation. split.
  - intros (p & I & D). apply doubled_ok in D. destruct D as (o & i & c & D). exists p, o, i, c. tauto.
  - intros (p & o & i & c & I & D). exists p. split; [exact I|]. apply doubled_ok. eauto.
Qed.
Lemma patterns_none ctx ps : ps <> [] -> forallb wf_pat ps = true -> (re_of_patterns ctx ps = None <-> double_negation ps).
Proof.
  intros NE W. rewrite <- doubled_all. destruct (list_exactly ctx ps) as [[D E]|(D & r & E & _)]; [|exact NE|exact W| |].
  - apply Forall_forall. intros p _. apply pattern_exactly.
  - rewrite D, E. tauto.
  - rewrite D, E. split; discriminate.
Qed.
